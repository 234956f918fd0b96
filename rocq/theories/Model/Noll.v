(** Model of coralign/util/nollzernikes.py. *)
From Coq Require Import ZArith Reals List Bool.
From Flocq Require Import Core BinarySingleNaN.
From Verif.Base Require Import Py F64 Arr Sums Loop Trig Lstsq.
From Verif.Model Require Import Math.
Import ListNotations.
Open Scope Z_scope.

(** nollzernikes.py:81, exact square root. [.astype(int)] truncates. *)
Definition noll_np1 (moa : Z) : Z :=
  Ztrunc (IZR (Zceil ((sqrt (1 + 8 * IZR moa) - 1) / 2)) + / 2)%R.
(** nollzernikes.py:81 in binary64. *)
Definition noll_np1_f (moa : Z) : res Z :=
  int_of_float (fadd (fceil (fdiv (fsub (fsqrt (fadd (fofZ 1) (fmul (fofZ 8) (fofZ moa)))) (fofZ 1))
                                  (fofZ 2))) fhalf).
(** nollzernikes.py:84 *)
Definition ntermsn (np1 : Z) : Z := (np1 * (np1 - 1)) / 2.
(** nollzernikes.py:85 *)
Definition noll_m (moa : Z) : Z :=
  let np1 := noll_np1 moa in
  ((moa - ntermsn np1 - ((np1 + 1) mod 2)) / 2) * 2 + ((np1 + 1) mod 2).
(** nollzernikes.py:86 *)
Definition noll_n (moa : Z) : Z := noll_np1 moa - 1.

(** nollzernikes.py:92-95: table of powers (one pixel; [nmax] is the largest index used). *)
Definition rpow_table (nmax : Z) (ra : R) : Z -> R :=
  for_range 1 (nmax + 1) (fun i t => upd t i (t (i - 1)%Z * ra)%R) (fun _ => 1%R).
(** nollzernikes.py:96-100: cosine (column 0) and sine (column 1) tables, initialised with 1. *)
Definition sincos_table (mmax : Z) (tha : R) : (Z -> R) * (Z -> R) :=
  for_range 1 (mmax + 1)
    (fun i t => (upd (fst t) i (cos (IZR i * tha)), upd (snd t) i (sin (IZR i * tha))))
    (fun _ => 1%R, fun _ => 1%R).

(** scipy.special.gamma at a positive integer. *)
Definition gamma_int (z : Z) : R := INR (fact (Z.to_nat (z - 1))).

Record tables := Tables { rnum : Z -> R; rden0 : Z -> R; rden1 : Z -> R; rden2 : Z -> R }.
Definition zero_table : Z -> R := fun _ => 0%R.
(** nollzernikes.py:106-118 for one order with radial mode [n] and azimuthal mode [m]. *)
Definition coef_tables (n m : Z) : tables :=
  let kmax := (n - m) / 2 in                                             (* 106 *)
  let t0 := Tables
    (upd zero_table kmax (gamma_int (n - kmax + 1) * (-1) ^ Z.to_nat kmax)%R)   (* 109 *)
    (upd zero_table 0 1%R)                                               (* 110 *)
    (upd zero_table kmax (gamma_int ((n + m) / 2 - kmax + 1)))           (* 111 *)
    (upd zero_table kmax (gamma_int ((n - m) / 2 - kmax + 1))) in        (* 112 *)
  for_range 1 (kmax + 1) (fun k t => Tables                              (* 113 *)
    (upd (rnum t) (kmax - k) (rnum t (kmax - k + 1)%Z * - (IZR n - IZR (kmax - k)))%R)
    (upd (rden0 t) k (rden0 t (k - 1)%Z * IZR k)%R)
    (upd (rden1 t) (kmax - k) (rden1 t (kmax - k + 1)%Z * IZR ((n + m) / 2 - (kmax - k)))%R)
    (upd (rden2 t) (kmax - k) (rden2 t (kmax - k + 1)%Z * IZR ((n - m) / 2 - (kmax - k)))%R)) t0.

(** nollzernikes.py:119-121: radial polynomial at one pixel. *)
Definition radial_value (nmax n m : Z) (ra : R) : R :=
  let t := coef_tables n m in
  for_range 0 ((n - m) / 2 + 1)
    (fun k rp => (rp + rnum t k / (rden0 t k * rden1 t k * rden2 t k)
                       * rpow_table nmax ra (n - 2 * k)%Z)%R) 0%R.

(** nollzernikes.py:71-72, 104-127, 131 for one order and one pixel. *)
Definition zern_value (nmax mmax : Z) (prad : R) (j : Z) (x y : R) : R :=
  let n := noll_n j in
  let m := noll_m j in
  let ra := (sqrt (x * x + y * y) / prad)%R in                           (* 71: np.hypot *)
  let tha := arctan2 y x in                                              (* 72 *)
  let sc := sincos_table mmax tha in
  let nc := if m =? 0 then sqrt (IZR (n + 1)) else sqrt (IZR (2 * (n + 1))) in   (* 126 *)
  (nc * (radial_value nmax n m ra * (if (j mod 2 =? 0)%Z then fst sc m else snd sc m)))%R.

Definition zmax_list (l : list Z) : Z := fold_right Z.max 0 l.   (* .max() of non-negative entries *)

(** nollzernikes.py:9-134. [m.max()] of an empty list raises ValueError. *)
Definition xyzern (x y : arr R) (prad : R) (orders : list Z) : res (list (arr R)) :=
  check (if Rlt_dec 0 prad then true else false) else TypeError;         (* 59 *)
  check same_shape x y else TypeError;                                   (* 60 *)
  check forallb (fun o => 0 <? o) orders else TypeError;                 (* 62-68 *)
  check (negb (Z.of_nat (List.length orders) =? 0)) else ValueError;     (* 89 *)
  let mmax := zmax_list (map noll_m orders) in
  let nmax := zmax_list (map noll_n orders) in
  Ok (map (fun j => amap2 (zern_value nmax mmax prad j) x y) orders).

(** nollzernikes.py:173-175: automatic size. *)
Definition auto_size (nBeam x_offset y_offset : R) : Z :=
  2 * Zceil (/ 2 * (nBeam + 1 + Rmax (Rabs x_offset) (Rabs y_offset)))%R.
(** nollzernikes.py:177-179: meshgrid of x (columns) and y (rows). *)
Definition grid_x (nArray : Z) (x_offset : R) : arr R :=
  Arr nArray nArray (fun _ j => IZR j - IZR (nArray / 2) - x_offset)%R.
Definition grid_y (nArray : Z) (y_offset : R) : arr R :=
  Arr nArray nArray (fun i _ => IZR i - IZR (nArray / 2) - y_offset)%R.
(** nollzernikes.py:182-184 *)
Definition weighted_sum (nArray : Z) (coefs : list R) (cube : list (arr R)) : arr R :=
  fold_left (fun acc cz => Arr nArray nArray (fun i j => at2 acc i j + fst cz * at2 (snd cz) i j)%R)
    (combine coefs cube) (afull nArray nArray 0%R).
(** nollzernikes.py:137-186 *)
Definition gen_zernikes (zernInd : list Z) (zernCoef : list R) (x_offset y_offset nBeam : R)
    (nArray : Z) : res (arr R) :=
  check (Z.of_nat (List.length zernInd) =? Z.of_nat (List.length zernCoef)) else ValueError;  (* 166 *)
  check (if Rlt_dec 0 nBeam then true else false) else ValueError;        (* 170 *)
  check (0 <? nArray) else ValueError;                                    (* 171 *)
  let nA := if nArray =? 1000000 then auto_size nBeam x_offset y_offset else nArray in
  do cube <- xyzern (grid_x nA x_offset) (grid_y nA y_offset) (nBeam / 2)%R zernInd;
  Ok (weighted_sum nA zernCoef cube).

(** numpy.linalg.lstsq(a, b, rcond=None)[0] as a function of the rows (given by a list of points), the
    number of columns, the matrix and the right-hand side. *)
Definition lstsq_fun := list (Z * Z) -> Z -> (Z * Z -> Z -> R) -> (Z * Z -> R) -> Z -> R.
(** Points of a map that are not 0, in row-major order (ravel). *)
Definition nonzero_points (m : arr R) : list (Z * Z) :=
  filter (fun p => if Req_EM_T (at2 m (fst p) (snd p)) 0 then false else true)
    (indices (nr m) (nc m)).
(** nollzernikes.py:237-242, 262-265: matrix of the fit; column k is Noll mode k+1. *)
Definition fit_matrix (ny nx : Z) (maxNoll : Z) (nBeam dx dy : R) : Z * Z -> Z -> R :=
  let orders := map (fun k => k + 1) (zrange maxNoll) in
  let mmax := zmax_list (map noll_m orders) in
  let nmax := zmax_list (map noll_n orders) in
  fun p k => zern_value nmax mmax (nBeam / 2)%R (k + 1)
               (IZR (snd p) - (IZR (nx / 2) + dx))%R (IZR (fst p) - (IZR (ny / 2) + dy))%R.
(** nollzernikes.py:189-269 *)
Definition fit_zernikes (lstsq : lstsq_fun) (wfe usable : arr R) (maxNoll : Z) (nBeam dx dy : R)
    : res (Z -> R) :=
  check same_shape wfe usable else ValueError;                            (* 226-228 *)
  check (0 <? maxNoll) else ValueError;                                   (* 229 *)
  check (if Rlt_dec 0 nBeam then true else false) else TypeError;         (* 230 *)
  Ok (lstsq (nonzero_points usable) maxNoll (fit_matrix (nr wfe) (nc wfe) maxNoll nBeam dx dy)
            (fun p => at2 wfe (fst p) (snd p))).
