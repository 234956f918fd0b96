(** Model of coralign/util/fresnelprop.py. Fields are arrays of complex numbers. *)
From Coq Require Import ZArith Bool List Reals.
From Flocq Require Import Core.
From Coquelicot Require Import Complex.
From Verif.Base Require Import Py Arr Sums CSum Fft.
From Verif.Model Require Import PadCrop.
Import ListNotations.
Open Scope Z_scope.

Definition pos_real (x : R) : bool := if Rlt_dec 0 x then true else false.

(** fresnelprop.py:11-32 *)
Definition do_fft (e : arr C) : res (arr C) :=
  do t <- fft2 (ifftshift e); Ok (fftshift t).                               (* 31 *)
(** fresnelprop.py:35-56 *)
Definition do_ifft (e : arr C) : res (arr C) :=
  do t <- ifft2 (ifftshift e); Ok (fftshift t).                              (* 55 *)

(** fresnelprop.py:102 and 162 *)
Definition n_samples_min (lam z ppm : R) : Z := Zceil (lam * Rabs z * ppm ^ 2)%R.

(** fresnelprop.py:108-115 and 168-175: the phase factor on the grid. meshgrid: x is the column. *)
Definition fp_array (lam z : R) (nx : Z) (ppm : R) : arr C :=
  Arr nx nx (fun r c =>
    let xxf := IZR (c - nx / 2) in
    let yyf := IZR (r - nx / 2) in
    let rrf := sqrt (xxf * xxf + yyf * yyf) in                               (* 110: np.hypot *)
    cis (- (PI * lam * z * (rrf * (ppm / IZR nx)) ^ 2))).

(** [a *= b] with numpy broadcasting of [b] to the shape of [a]. *)
Definition imul (a b : arr C) : res (arr C) :=
  check bc_ok (nr a) (nr b) && bc_ok (nc a) (nc b) else ValueError;
  Ok (Arr (nr a) (nc a)
     (fun i j => Cmult (at2 a i j) (at2 b (bc_idx (nr b) i) (bc_idx (nc b) j)))).

(** fresnelprop.py:118-122 and 217-221 *)
Definition propagate (e : arr C) (nx : Z) (fp : arr C) : res (arr C) :=
  do efresnel <- pad_crop e [nx; nx] (RtoC 0);
  do fefresnel <- do_fft efresnel;
  do fefresnel <- imul fefresnel fp;
  do efresnel2 <- do_ifft fefresnel;
  pad_crop efresnel2 [nr e; nc e] (RtoC 0).

(** fresnelprop.py:59-122 *)
Definition fresnelprop (e : arr C) (lam z : R) (nx : Z) (ppm : R) : res (arr C) :=
  check pos_real lam else TypeError;                                         (* 88 *)
  check 0 <? nx else TypeError;                                              (* 90 *)
  check pos_real ppm else TypeError;                                         (* 91 *)
  if Req_EM_T z 0 then Ok e else                                             (* 99-100 *)
  check negb (Z.min (nr e) (nc e) <? n_samples_min lam z ppm) else ValueError;   (* 102-106 *)
  propagate e nx (fp_array lam z nx ppm).                                    (* 108-122 *)

(** fresnelprop.py:125-175 *)
Definition get_fp (lam z : R) (nx : Z) (ppm : R) : res (arr C) :=
  check pos_real lam else TypeError;                                         (* 152 *)
  check 0 <? nx else TypeError;                                              (* 154 *)
  check pos_real ppm else TypeError;                                         (* 155 *)
  check negb (nx <? n_samples_min lam z ppm) else ValueError;                (* 162-166 *)
  Ok (fp_array lam z nx ppm).

(** fresnelprop.py:178-221 *)
Definition fresnelprop_fp (e : arr C) (z : R) (nx : Z) (fp : arr C) : res (arr C) :=
  check 0 <? nx else TypeError;                                              (* 209 *)
  if Req_EM_T z 0 then Ok e else propagate e nx fp.                          (* 213-221 *)
