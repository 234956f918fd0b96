(** Documented input ranges and sampling quantities of the HLC occulter generator, and the transmission of one pixel. *)
From Coq Require Import ZArith Bool List String Reals.
From Flocq Require Import Core.
From Coquelicot Require Import Complex.
From Verif.Base Require Import Py Arr.
From Verif.Model Require Import ThinFilm MaskGen.
Import ListNotations.
Open Scope Z_scope.

Definition hlc_checks (p : hlc) (lam : R) (ny nx : Z) : Prop :=
  (0 < lam /\ 0 < h_ppl p /\ 0 < h_lam0 p /\ 0 < h_hTi p /\ 0 < h_hNi p /\ 0 < h_dx p /\ 0 < h_FN p /\ 0 < h_hRefCoef p /\
   0 <= h_aoi p < 90 /\ 1 <= h_padFac p /\ 2 <= h_minOversize p)%R /\
  (h_polState p = 0 \/ h_polState p = 1 \/ h_polState p = 2) /\ 0 < ny /\ 0 < nx.
(** Pixels per lambda/D in the pattern file, and asked for. *)
Definition ppl_start (p : hlc) : R := (h_FN p * h_lam0 p / h_dx p)%R.
Definition ppl_end (p : hlc) (lam : R) (scale : bool) : R := if scale then (h_lam0 p / lam * h_ppl p)%R else h_ppl p.
(** Width in output pixels of the computed window: the occulter diameter times the oversizing factor, rounded up. *)
Definition n_end (p : hlc) (lam : R) (scale : bool) : Z := Zceil (2 * h_rOccLamD p * ppl_end p lam scale * h_minOversize p).
(** Width of the intermediate image covering (almost) the same area at file resolution. *)
Definition n_mid (p : hlc) (lam : R) (scale : bool) : Z := Zfloor (ppl_start p / ppl_end p lam scale * IZR (n_end p lam scale)).
Definition ratio (p : hlc) (lam : R) (scale : bool) : R := (IZR (n_mid p lam scale) / IZR (n_end p lam scale))%R.
Definition magn (p : hlc) (lam : R) (scale : bool) : R := (ratio p lam scale * ppl_end p lam scale / ppl_start p)%R.
(** Transmission of one pixel with [h] metres of PMGI on top of nickel and titanium: bare substrate if [h] is not positive. *)
Definition pixel_coef (fd : film_data) (p : hlc) (lam h : R) (t : option C) : Prop := exists r,
  calc_complex_occulter fd lam (h_aoi p) [if Rlt_dec 0 h then h_hTi p else 0%R] [if Rlt_dec 0 h then h_hNi p else 0%R]
    [if Rlt_dec 0 h then h else 0%R] (h_hRefCoef p * h_lam0 p) (h_polState p) false "FS" = Ok ([t], [r]).
(** Real and imaginary part of the departure from unit transmission. *)
Definition part_re (s : arr C) : arr R := amap (fun z => fst (z - RtoC 1)%C) s.
Definition part_im (s : arr C) : arr R := amap (fun z => snd (z - RtoC 1)%C) s.
