(** Model of coralign/util/shapes.py:circle in binary64, operation by operation. *)
From Coq Require Import ZArith Bool List.
From Flocq Require Import Core BinarySingleNaN.
From Verif.Base Require Import Py Arr Sums F64.
Open Scope Z_scope.

(** numpy.linspace(a, b, n)[i], for 0 <= i < n: i * step + a with step = (b - a) / (n - 1), and the last element set to b.
    (numpy takes i / (n - 1) * (b - a) when the step is zero.) *)
Definition linspace_f (a b : f64) (n i : Z) : f64 :=
  if n =? 1 then fadd (fmul (fofZ i) (fsub b a)) a
  else if i =? n - 1 then b
  else let delta := fsub b a in
       let step := fdiv delta (fofZ (n - 1)) in
       fadd (if feq step fzero then fmul (fdiv (fofZ i) (fofZ (n - 1))) delta else fmul (fofZ i) step) a.
(** shapes.py:113-121: pixel coordinates along one axis. *)
Definition axis_f (n : Z) (off : f64) (i : Z) : f64 :=
  if Z.even n then fsub (linspace_f (fdiv (fofZ (- n)) (fofZ 2)) (fsub (fdiv (fofZ n) (fofZ 2)) (fofZ 1)) n i) off
  else fsub (linspace_f (fdiv (fofZ (- (n - 1))) (fofZ 2)) (fdiv (fofZ (n - 1)) (fofZ 2)) n i) off.
(** shapes.py:134-137: subpixel offsets. *)
Definition xUp_f (ns q : Z) : f64 :=
  fmul (linspace_f (fdiv (fofZ (- (ns - 1))) (fofZ 2)) (fdiv (fofZ (ns - 1)) (fofZ 2)) ns q) (fdiv (fofZ 1) (fofZ ns)).
(** numpy.sqrt(x*x + y*y) (shapes.py:125, 150). numpy squares an array for x**2. *)
Definition rho_f (x y : f64) : f64 := fsqrt (fadd (fmul x x) (fmul y y)).
(** shapes.py:146-154: number of subpixels within the radius. numpy.sum adds zeros and ones, which is exact below 2^53. *)
Definition inside_count_f (radius : f64) (ns : Z) (xc yc : f64) : Z :=
  gsum Z 0 Z.add (fun p => gsum Z 0 Z.add (fun q =>
    if fle (rho_f (fadd (xUp_f ns q) xc) (fadd (xUp_f ns p) yc)) radius then 1 else 0) ns) ns.
(** shapes.py:79-160 *)
Definition circle_f (nx ny : Z) (radius xOffset yOffset : f64) (ns : Z) (isDark : bool) : res (arr f64) :=
  check 0 <? nx else TypeError;                                             (* 106 *)
  check 0 <? ny else TypeError;                                             (* 107 *)
  check negb (fle radius fzero) else TypeError;                             (* 108: NaN passes *)
  check 0 <? ns else TypeError;                                             (* 111 *)
  check 1 <? nx else IndexError;                                            (* 123 *)
  let x := axis_f nx xOffset in
  let y := axis_f ny yOffset in
  let dx := fsub (x 1) (x 0) in                                             (* 123 *)
  let h := fmul (fsqrt (fofZ 2)) dx in                                      (* 127 *)
  let pixel i j :=
    let rho := rho_f (x j) (y i) in                                         (* 125 *)
    if flt (fadd radius h) (Babs rho) then fzero                            (* 130 *)
    else if flt (Babs rho) (fsub radius h) then fofZ 1                      (* 129 *)
    else fdiv (fofZ (inside_count_f radius ns (x j) (y i))) (fofZ (ns * ns)) in   (* 153-155 *)
  Ok (Arr ny nx (fun i j => if isDark then fsub (fofZ 1) (pixel i j) else pixel i j)).   (* 157-160 *)
