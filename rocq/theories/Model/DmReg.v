(** Model of coralign/dmreg/dmreg.py. Arrays are 2-D, real and finite; scalar arguments are real. *)
From Coq Require Import ZArith Bool List String Reals.
From Verif.Base Require Import Py Arr Vec Sums Trig.
From Verif.Model Require Import Math Noll Fits Shapes PadCrop Dm Yaml DarkHole PsfFit PupilUtil Unwrap Occastro.
Import ListNotations.
Open Scope string_scope.
Open Scope Z_scope.

(** ** Usable pixels *)

(** dmreg.py:18-93. The structure is an array of ones. *)
Definition calc_software_mask (lstsq : lstsq_fun) (amp0 ph0 amp1 ph1 : arr R) (whichDM nErode : Z) (thresh : R)
  : res (arr bool) :=
  check same_shape amp0 ph0 else ValueError;                                (* 65 *)
  check same_shape amp0 amp1 else ValueError;                               (* 67 *)
  check same_shape ph0 ph1 else ValueError;                                 (* 69 *)
  check (0 <? whichDM) && ((whichDM =? 1) || (whichDM =? 2)) else ValueError;   (* 71-73 *)
  check 0 <=? nErode else ValueError;                                       (* 74 *)
  check Rltb 0 thresh else ValueError;                                      (* 75 *)
  let phDiff := amap2 Rminus ph1 ph0 in                                     (* 78 *)
  do m <- ampthresh amp0 21;                                                (* 81 *)
  do flat <- remove_piston_tip_tilt lstsq phDiff (amap of_bool m);          (* 82 *)
  let m1 := Arr (nr m) (nc m) (fun i j => if Rltb thresh (Rabs (at2 flat i j)) then false else at2 m i j) in   (* 86 *)
  binary_erosion m1 (afull (1 + 2 * nErode) (1 + 2 * nErode) true).         (* 90-91 *)

(** ** Reading the files *)

(** check.real_scalar, real_positive_scalar and positive_scalar_integer with vexc = ValueError. *)
Definition value_error {A} (r : res A) : res A := match r with Ok a => Ok a | Err _ => Err ValueError end.
Definition real_v (v : yval) : res R := value_error (real_scalar_ v).
Definition positive_v (v : yval) : res R := value_error (positive_scalar_ v).
Definition positive_int_v (v : yval) : res Z := value_error (positive_int_ v).
(** bool(v) *)
Definition truthy (v : yval) : bool :=
  match v with
  | YNone => false
  | YBool b => b
  | YInt z => negb (z =? 0)
  | YReal r => if Req_EM_T r 0 then false else true
  | YStr s => negb (s =? "")%string
  | YList l => match l with [] => false | _ => true end
  | YDict d => match d with [] => false | _ => true end
  end.
(** fits.getdata(os.path.join(data_path, name)), as a function of the YAML value of name. *)
Definition getdata_fun := yval -> res (arr R).
Record dm_data := DmData { d_gain : arr R; d_inf : arr R; d_nact : Z; d_ppd : Z; d_cx : R; d_cy : R }.
(** dmreg.py:223-232 and 426-434, with the entries of the registration dictionary that the loops read. They are read
    here once, before the loops; dmhtoph refuses those of a wrong type with TypeError. *)
Definition registration_of (dmDict : yval) (whichDM : Z) : res (yval * yval) :=
  do dms <- item dmDict "dms";
  do dm <- item dms (if whichDM =? 1 then "DM1" else "DM2");
  do dmr <- item dm "registration";
  Ok (dm, dmr).
Definition read_dm (getdata : getdata_fun) (dm dmr : yval) : res dm_data :=
  do volts <- item dm "voltages";
  do gainfn <- item volts "gainfn";
  do gain <- getdata gainfn;
  do inffn <- item dmr "inffn";
  do inf <- getdata inffn;
  do nact_ <- item dmr "nact"; do nact <- positive_int_ nact_;
  do ppd_ <- item dmr "ppact_d"; do ppd <- positive_int_ ppd_;
  do cx_ <- item dmr "ppact_cx"; do cx <- positive_scalar_ cx_;
  do cy_ <- item dmr "ppact_cy"; do cy <- positive_scalar_ cy_;
  Ok (DmData gain inf nact ppd cx cy).

(** dmreg.py:176-195 and 387-404. *)
Definition check_maps (amp0 ph0 amp1 ph1 usable : arr R) (whichDM : Z) (deltaV : arr R) (lam : R) : res unit :=
  check same_shape amp0 ph0 else ValueError;
  check same_shape amp0 amp1 else ValueError;
  check same_shape amp0 ph1 else ValueError;
  check same_shape amp0 usable else ValueError;
  check (0 <? whichDM) && ((whichDM =? 1) || (whichDM =? 2)) else ValueError;
  check nr deltaV =? nc deltaV else ValueError;
  guard (Rltb 0 lam) ValueError.

(** ** Costs *)

(** np.sum(usablePixelMap * np.abs(a - b)) *)
Definition abs_misfit (usable a b : arr R) : R :=
  rsum2 (fun i j => at2 usable i j * Rabs (at2 a i j - at2 b i j))%R (nr usable) (nc usable).
(** dmreg.py:235-237 and 438-440: np.angle(np.exp(1j*d)), then plane removal. *)
Definition measured (lstsq : lstsq_fun) (ph0 ph1 usable : arr R) : res (arr R) :=
  remove_piston_tip_tilt lstsq (amap wrap_angle (amap2 Rminus ph1 ph0)) usable.
(** dmreg.py:255-266 *)
Definition offset_cost (lstsq : lstsq_fun) (ops : scipy_ops) (usable meas dmrad : arr R) (dm : dm_data) (flip : bool)
    (nrow ncol : Z) (clock x y : R) : res R :=
  do s <- dmhtoph ops nrow ncol dmrad (d_nact dm) (d_inf dm) (d_ppd dm) (d_cx dm) (d_cy dm) x y clock flip;
  do w <- remove_piston_tip_tilt lstsq (amap (fun v => v * 2)%R s) usable;
  Ok (abs_misfit usable meas w).
(** dmreg.py:290-297: neither doubled nor flattened. *)
Definition clock_cost (ops : scipy_ops) (usable meas dmrad : arr R) (dm : dm_data) (flip : bool)
    (nrow ncol : Z) (x y clock : R) : res R :=
  do s <- dmhtoph ops nrow ncol dmrad (d_nact dm) (d_inf dm) (d_ppd dm) (d_cx dm) (d_cy dm) x y clock flip;
  Ok (abs_misfit usable meas s).
(** dmreg.py:450-461. The first two arguments of dmhtoph are columns and rows, in this order. *)
Definition scale_cost (lstsq : lstsq_fun) (ops : scipy_ops) (usable meas dmrad : arr R) (dm : dm_data)
    (nrow ncol : Z) (x y clock : R) (sx sy : R) : res R :=
  do s <- dmhtoph ops ncol nrow dmrad (d_nact dm) (d_inf dm) (d_ppd dm) (sx * d_cx dm) (sy * d_cy dm) x y clock false;
  do c <- pad_crop (amap (fun v => v * 2)%R s) [nrow; ncol] 0%R;
  do w <- remove_piston_tip_tilt lstsq c usable;
  Ok (abs_misfit usable meas w).

(** ** Searches *)

(** dmreg.py:252-283: passes number [iter], ... of the translation fit; the trial vector is [f] times the one
    spread over (-omax, omax). *)
Fixpoint offset_loop (lstsq : lstsq_fun) (cost : R -> R -> res R) (n nIter : Z) (omax shrink : R) (k iter : nat)
    (f x y : R) : res (R * R * R) :=
  match k with
  | O => Ok (f, x, y)
  | S k' =>
      let v := Vec n (fun i => f * linspace (- omax) omax n i)%R in
      do m <- fill_mat (fun iy ix => cost (x + vat v ix)%R (y + vat v iy)%R) (Z.to_nat n) 0 (Z.to_nat n);
      do o <- (if Nat.eqb iter 0 && (1 <? nIter) then
                 do b <- argmin2 (Arr n n m); Ok (vat v (snd b), vat v (fst b))                       (* 270-273 *)
               else find_optimum_2d lstsq v v (Arr n n m) (afull n n 1%R));                           (* 275-277 *)
      offset_loop lstsq cost n nIter omax shrink k' (S iter) (shrink ^ iter)%R (x + fst o)%R (y + snd o)%R
  end.
(** dmreg.py:286-305 *)
Fixpoint clock_loop (lstsq1 : lstsq1_fun) (cost : R -> res R) (n nIter : Z) (cmax shrink : R) (k iter : nat) (c : R) : res R :=
  match k with
  | O => Ok c
  | S k' =>
      let v := Vec n (linspace (- cmax) cmax n) in
      do cv <- fill_vec (fun i => cost (shrink ^ iter * vat v i + c)%R) 0 (Z.to_nat n);               (* 289-297 *)
      do d <- (if Nat.eqb iter 0 && (1 <? nIter) then do b <- argmin2 (Arr 1 n (fun _ i => cv i)); Ok (vat v (snd b))
               else find_optimum_1d lstsq1 v (Vec n cv));                                             (* 301-305 *)
      clock_loop lstsq1 cost n nIter cmax shrink k' (S iter) (c + d)%R
  end.
Record fit_params := FitParams { p_both : Z; p_omax : R; p_noff : Z; p_ioff : Z; p_shrink : R; p_cmax : R; p_nclock : Z; p_iclock : Z }.
(** dmreg.py:249-305 *)
Fixpoint both_loop (lstsq : lstsq_fun) (lstsq1 : lstsq1_fun) (ocost : R -> R -> R -> res R) (ccost : R -> R -> R -> res R)
    (p : fit_params) (k : nat) (f x y c : R) : res (R * R * R) :=
  match k with
  | O => Ok (x, y, c)
  | S k' =>
      do o <- offset_loop lstsq (ocost c) (p_noff p) (p_ioff p) (p_omax p) (p_shrink p) (Z.to_nat (p_ioff p)) 0 f x y;
      let '(f1, x1, y1) := o in
      do c1 <- clock_loop lstsq1 (ccost x1 y1) (p_nclock p) (p_iclock p) (p_cmax p) (p_shrink p) (Z.to_nat (p_iclock p)) 0 c;
      both_loop lstsq lstsq1 ocost ccost p k' f1 x1 y1 c1
  end.
(** dmreg.py:200-218 *)
Definition read_fit_params (v : yval) : res fit_params :=
  do both_ <- item v "nIterBoth";
  do omax_ <- item v "offsetMax";
  do noff_ <- item v "nOffset";
  do ioff_ <- item v "nIterOffset";
  do shrink_ <- item v "shrinkFac";
  do cmax_ <- item v "clockMaxDeg";
  do nclock_ <- item v "nClock";
  do iclock_ <- item v "nIterClock";
  do both <- positive_int_v both_;
  do omax <- real_v omax_;
  do noff <- positive_int_v noff_;
  do ioff <- positive_int_v ioff_;
  do shrink <- positive_v shrink_;
  check negb (Rltb 1 shrink) else ValueError;
  do cmax <- real_v cmax_;
  do nclock <- positive_int_v nclock_;
  do iclock <- positive_int_v iclock_;
  Ok (FitParams both omax noff ioff shrink cmax nclock iclock).
(** dmreg.py:96-307. [fitv], [dmv] are the parsed YAML files. *)
Definition calc_translation_clocking (lstsq : lstsq_fun) (lstsq1 : lstsq1_fun) (ops : scipy_ops) (getdata : getdata_fun)
    (amp0 ph0 amp1 ph1 usable : arr R) (whichDM : Z) (deltaV : arr R) (xOffsetPupil yOffsetPupil : R) (dmv fitv : yval) (lam : R)
  : res (R * R * R) :=
  do _ <- check_maps amp0 ph0 amp1 ph1 usable whichDM deltaV lam;
  do p <- read_fit_params fitv;
  do r <- registration_of dmv whichDM;
  do flip_ <- item (snd r) "flipx";                                         (* 228 *)
  do dm <- read_dm getdata (fst r) (snd r);
  do th_ <- item (snd r) "thact";                                           (* 245 *)
  do th <- real_scalar_ th_;
  do dmrad <- volts_to_dmh (d_gain dm) deltaV lam;                          (* 233 *)
  do meas <- measured lstsq ph0 ph1 usable;                                 (* 235-237 *)
  both_loop lstsq lstsq1
    (fun c x y => offset_cost lstsq ops usable meas dmrad dm (truthy flip_) (nr amp0) (nc amp0) c x y)
    (fun x y c => clock_cost ops usable meas dmrad dm (truthy flip_) (nr amp0) (nc amp0) x y c)
    p (Z.to_nat (p_both p)) 1 xOffsetPupil yOffsetPupil th.

(** dmreg.py:447-474: one more pass while [k] > 0, with trial factors spread over (1 - m, 1 + m). *)
Fixpoint scale_loop (lstsq : lstsq_fun) (cost : R -> R -> res R) (n : Z) (shrink : R) (first : bool) (k : nat) (m sx sy : R) : res (R * R) :=
  match k with
  | O => Ok (sx, sy)
  | S k' =>
      let v := Vec n (linspace (1 - m) (1 + m) n) in
      do c <- fill_mat (fun iy ix => cost (vat v ix * sx)%R (vat v iy * sy)%R) (Z.to_nat n) 0 (Z.to_nat n);
      do o <- (if first then do b <- argmin2 (Arr n n c); Ok (vat v (snd b), vat v (fst b))           (* 463-466 *)
               else find_optimum_2d lstsq v v (Arr n n c) (afull n n 1%R));                           (* 468-469 *)
      scale_loop lstsq cost n shrink false k' (shrink * m)%R (fst o * sx)%R (snd o * sy)%R
  end.
(** dmreg.py:310-479 *)
Definition calc_scale (lstsq : lstsq_fun) (ops : scipy_ops) (getdata : getdata_fun)
    (amp0 ph0 amp1 ph1 usable : arr R) (whichDM : Z) (deltaV : arr R) (dmv fitv : yval) (lam xOffset yOffset clocking : R)
  : res (R * R) :=
  do _ <- check_maps amp0 ph0 amp1 ph1 usable whichDM deltaV lam;
  do m_ <- item fitv "maxDeltaScaleFac";                                    (* 412-415 *)
  do n_ <- item fitv "nScale";
  do k_ <- item fitv "nIter";
  do s_ <- item fitv "shrinkFac";
  do m <- real_v m_;                                                        (* 416-421 *)
  do n <- positive_int_v n_;
  do k <- positive_int_v k_;
  do s <- positive_v s_;
  check negb (Rltb 1 s) else ValueError;
  do r <- registration_of dmv whichDM;
  do dm <- read_dm getdata (fst r) (snd r);
  do dmrad <- volts_to_dmh (d_gain dm) deltaV lam;                          (* 435 *)
  do meas <- measured lstsq ph0 ph1 usable;                                 (* 438-440 *)
  do o <- scale_loop lstsq (fun sx sy => scale_cost lstsq ops usable meas dmrad dm (nr amp0) (nc amp0) xOffset yOffset clocking sx sy)
            n s (1 <? k) (Z.to_nat k) m 1 1;
  Ok (fst o * d_cx dm, snd o * d_cy dm)%R.                                  (* 476-477 *)
