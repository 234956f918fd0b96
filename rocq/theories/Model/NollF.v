(** Model of coralign/util/nollzernikes.py, xyzern and gen_zernikes, over IEEE doubles, operation by operation. The library routines
    numpy.hypot, arctan2, cos, sin and scipy.special.gamma are the arguments [fhypot], [fatan2], [fcos], [fsin], [fgamma]; the last
    is called on integers only. The model over exact reals is Noll.v. *)
From Coq Require Import ZArith Bool List.
From Flocq Require Import Core BinarySingleNaN.
From Verif.Base Require Import Py F64 Arr Loop.
From Verif.Model Require Import Math Noll.
Import ListNotations.
Open Scope Z_scope.

(** The orders (n, m) of an index, from the radial order plus one (nollzernikes.py:84-86). *)
Definition orders_of (j np1 : Z) : Z * Z :=
  (np1 - 1, ((j - ntermsn np1 - ((np1 + 1) mod 2)) / 2) * 2 + ((np1 + 1) mod 2)).
(** nollzernikes.py:81-86 for every index. *)
Fixpoint decode_f (orders : list Z) : res (list (Z * (Z * Z))) :=
  match orders with
  | [] => Ok []
  | j :: l => do np1 <- noll_np1_f j; do r <- decode_f l; Ok ((j, orders_of j np1) :: r)
  end.

(** nollzernikes.py:92-95, one pixel. *)
Definition rpow_table_f (nmax : Z) (ra : f64) : Z -> f64 :=
  for_range 1 (nmax + 1) (fun i t => upd t i (fmul (t (i - 1)%Z) ra)) (fun _ => fadd fzero (fofZ 1)).
(** nollzernikes.py:96-100, one pixel. *)
Definition sincos_table_f (fcos fsin : f64 -> f64) (mmax : Z) (tha : f64) : (Z -> f64) * (Z -> f64) :=
  for_range 1 (mmax + 1)
    (fun i t => (upd (fst t) i (fcos (fmul (fofZ i) tha)), upd (snd t) i (fsin (fmul (fofZ i) tha))))
    (fun _ => fadd fzero (fofZ 1), fun _ => fadd fzero (fofZ 1)).

Record tables_f := TablesF { fnum : Z -> f64; fden0 : Z -> f64; fden1 : Z -> f64; fden2 : Z -> f64 }.
(** nollzernikes.py:106-118 *)
Definition coef_tables_f (fgamma : Z -> f64) (n m : Z) : tables_f :=
  let kmax := (n - m) / 2 in                                                (* 106 *)
  let zeros := fun _ : Z => fzero in
  let t0 := TablesF
    (upd zeros kmax (fmul (fgamma (n - kmax + 1)) (fofZ ((-1) ^ kmax))))    (* 107, 109 *)
    (upd zeros 0 (fofZ 1))                                                  (* 108, 110 *)
    (upd zeros kmax (fgamma ((n + m) / 2 - kmax + 1)))                      (* 111 *)
    (upd zeros kmax (fgamma ((n - m) / 2 - kmax + 1))) in                   (* 112 *)
  for_range 1 (kmax + 1) (fun k t => TablesF                                (* 113 *)
    (upd (fnum t) (kmax - k) (fmul (fnum t (kmax - k + 1)) (fofZ (- (n - (kmax - k))))))
    (upd (fden0 t) k (fmul (fden0 t (k - 1)) (fofZ k)))
    (upd (fden1 t) (kmax - k) (fmul (fden1 t (kmax - k + 1)) (fofZ ((n + m) / 2 - (kmax - k)))))
    (upd (fden2 t) (kmax - k) (fmul (fden2 t (kmax - k + 1)) (fofZ ((n - m) / 2 - (kmax - k)))))) t0.
(** nollzernikes.py:120: the factor of rpow[n - 2 k]; numpy.prod multiplies from the first row on. *)
Definition coef_f (fgamma : Z -> f64) (n m k : Z) : f64 :=
  let t := coef_tables_f fgamma n m in fdiv (fnum t k) (fmul (fmul (fden0 t k) (fden1 t k)) (fden2 t k)).
(** nollzernikes.py:105, 119-121, one pixel. *)
Definition radial_value_f (fgamma : Z -> f64) (nmax n m : Z) (ra : f64) : f64 :=
  for_range 0 ((n - m) / 2 + 1)
    (fun k rp => fadd rp (fmul (coef_f fgamma n m k) (rpow_table_f nmax ra (n - 2 * k)))) fzero.
(** nollzernikes.py:126 *)
Definition norm_f (n m : Z) : f64 := if m =? 0 then fsqrt (fofZ (n + 1)) else fsqrt (fofZ (2 * (n + 1))).

Section Lib.
Variables (fhypot fatan2 : f64 -> f64 -> f64) (fcos fsin : f64 -> f64) (fgamma : Z -> f64).
(** nollzernikes.py:71-72, 104-122, 126, 131 for one order and one pixel. *)
Definition zern_value_f (nmax mmax : Z) (prad : f64) (j n m : Z) (x y : f64) : f64 :=
  let ra := fdiv (fhypot x y) prad in                                       (* 71 *)
  let tha := fatan2 y x in                                                  (* 72 *)
  let sc := sincos_table_f fcos fsin mmax tha in
  fmul (norm_f n m) (fmul (radial_value_f fgamma nmax n m ra) (if j mod 2 =? 0 then fst sc m else snd sc m)).   (* 122, 131 *)
(** nollzernikes.py:9-134. A nan radius passes the check of line 59. *)
Definition xyzern_f (x y : arr f64) (prad : f64) (orders : list Z) : res (list (arr f64)) :=
  check negb (fle prad fzero) else TypeError;                               (* 59 *)
  check same_shape x y else TypeError;                                      (* 60 *)
  check forallb (fun o => 0 <? o) orders else TypeError;                    (* 62-68 *)
  do d <- decode_f orders;                                                  (* 81-86 *)
  check negb (Z.of_nat (List.length orders) =? 0) else ValueError;          (* 89 *)
  let mmax := zmax_list (map (fun p => snd (snd p)) d) in                   (* 89 *)
  let nmax := zmax_list (map (fun p => fst (snd p)) d) in                   (* 90 *)
  Ok (map (fun p => amap2 (zern_value_f nmax mmax prad (fst p) (fst (snd p)) (snd (snd p))) x y) d).
(** nollzernikes.py:173-175: automatic size. *)
Definition auto_size_f (nBeam x_offset y_offset : f64) : res Z :=
  let ax := Babs x_offset in let ay := Babs y_offset in
  let big := if fisnan ax then ax else if fisnan ay then ay else if fle ay ax then ax else ay in
  int_of_float (fmul (fofZ 2) (fceil (fmul fhalf (fadd (fadd nBeam (fofZ 1)) big)))).
(** nollzernikes.py:177-178 *)
Definition grid_coord_f (nArray : Z) (offset : f64) (i : Z) : f64 := fsub (fsub (fofZ i) (fofZ (nArray / 2))) offset.
(** nollzernikes.py:137-186 *)
Definition gen_zernikes_f (zernInd : list Z) (zernCoef : list f64) (x_offset y_offset nBeam : f64) (nArray : Z) : res (arr f64) :=
  check Z.of_nat (List.length zernInd) =? Z.of_nat (List.length zernCoef) else ValueError;   (* 166 *)
  check negb (fle nBeam fzero) else ValueError;                             (* 170 *)
  check 0 <? nArray else ValueError;                                        (* 171 *)
  do nA <- (if nArray =? 1000000 then auto_size_f nBeam x_offset y_offset else Ok nArray);   (* 173 *)
  do cube <- xyzern_f (Arr nA nA (fun _ j => grid_coord_f nA x_offset j)) (Arr nA nA (fun i _ => grid_coord_f nA y_offset i))
               (fdiv nBeam (fofZ 2)) zernInd;                               (* 177-181 *)
  Ok (fold_left (fun acc cz => Arr nA nA (fun i j => fadd (at2 acc i j) (fmul (fst cz) (at2 (snd cz) i j))))
        (combine zernCoef cube) (afull nA nA fzero)).                       (* 182-184 *)
End Lib.
