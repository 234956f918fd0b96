(** Model of coralign/gainmap/gm_util.py and gainmap.py. FITS files are represented by the array they contain.
    SciPy's cubic interp1d is a parameter [spline]; its argument checks and bounds check are modelled. NaN is [None]. *)
From Coq Require Import ZArith Bool List Reals.
From Verif.Base Require Import Py Arr.
From Verif.Model Require Import Fits.
Import ListNotations.
Open Scope Z_scope.

(** Contents of a FITS file: an array of rank 1, 2, 3, or anything else. *)
Record cube := Cube { c_n : Z; c_rows : Z; c_cols : Z; at3 : Z -> Z -> Z -> R }.
Inductive fitsdata := F1 (v : list R) | F2 (a : arr R) | F3 (c : cube) | FOther.
Definition as_vector (d : fitsdata) : res (list R) := match d with F1 v => Ok v | _ => Err ValueError end.
Definition as_cube (d : fitsdata) : res cube := match d with F3 c => Ok c | _ => Err ValueError end.

(** numpy.sort *)
Fixpoint insert (x : R) (l : list R) : list R :=
  match l with
  | [] => [x]
  | y :: l' => if Rleb x y then x :: l else y :: insert x l'
  end.
Fixpoint npsort (l : list R) : list R := match l with [] => [] | x :: l' => insert x (npsort l') end.
(** numpy.unique: sort, then keep the first of each run of equal values. *)
Fixpoint runs (l : list R) : list R :=
  match l with
  | [] => []
  | x :: l' => match l' with
               | [] => [x]
               | y :: _ => if Req_EM_T x y then runs l' else x :: runs l'
               end
  end.
Definition npunique (l : list R) : list R := runs (npsort l).
(** numpy.allclose(a, b, rtol, atol) for equal lengths. *)
Definition close (rtol atol a b : R) : bool := Rleb (Rabs (a - b)) (atol + rtol * Rabs b).
Definition allclose (rtol atol : R) (a b : list R) : bool :=
  forallb (fun p => close rtol atol (fst p) (snd p)) (combine a b).
Definition rtol_default : R := / 100000.
Definition atol_default : R := / 100000000.
Definition eps : R := / 2 ^ 52.                                             (* np.finfo(float).eps *)

(** gm_util.py:255-266 *)
Definition verify_unique (v : list R) : res unit :=
  guard (Nat.eqb (length v) (length (npunique v))) ValueError.
(** gm_util.py:269-282 *)
Definition verify_presorted (v : list R) : res unit :=
  guard (allclose rtol_default eps v (npsort v)) ValueError.

(** gm_util.py:216-252 *)
Definition nthR (l : list R) (i : Z) : R := nth (Z.to_nat i) l 0%R.
Definition len (l : list R) : Z := Z.of_nat (length l).
Definition diff_and_mean (fnVec : fitsdata) : res (list R * list R) :=
  do v <- as_vector fnVec;
  do _ <- verify_unique v;
  do _ <- verify_presorted v;
  let nOut := len v - 1 in
  check 0 <=? nOut else ValueError;                                         (* 246: np.zeros(-1) *)
  Ok (map (fun i => nthR v (i + 1) - nthR v i)%R (zrange nOut),
      map (fun i => (nthR v (i + 1) + nthR v i) / 2)%R (zrange nOut)).

(** gm_util.py:174-213 *)
Definition gain_cube (fnRefCube fnRefCommandVec : fitsdata) : res cube :=
  do dm <- diff_and_mean fnRefCommandVec;
  let diffVec := fst dm in
  do c <- as_cube fnRefCube;
  check len diffVec + 1 =? c_n c else ValueError;
  Ok (Cube (c_n c - 1) (c_rows c) (c_cols c) (fun k i j => (at3 c (k + 1) i j - at3 c k i j) / nthR diffVec k)%R).

(** The loops "for iCol: for iRow: out[iRow, iCol] = f(iRow, iCol)": the first exception ends them. *)
Fixpoint first_err {A} (l : list (Z * Z)) (f : Z -> Z -> res A) : option exn :=
  match l with
  | [] => None
  | (i, j) :: l' => match f i j with Err e => Some e | Ok _ => first_err l' f end
  end.
Definition col_major (n m : Z) : list (Z * Z) := flat_map (fun j => map (fun i => (i, j)) (zrange n)) (zrange m).
Definition get {A} (d : A) (r : res A) : A := match r with Ok a => a | Err _ => d end.
Definition fill2 {A} (d : A) (n m : Z) (f : Z -> Z -> res A) : res (arr A) :=
  match first_err (col_major n m) f with
  | Some e => Err e
  | None => Ok (Arr n m (fun i j => get d (f i j)))
  end.
(** cube[:, i, j] for nonnegative i, j: IndexError outside. *)
Definition profile (c : cube) (i j : Z) : res (list R) :=
  check (i <? c_rows c) && (j <? c_cols c) else IndexError;
  Ok (map (fun k => at3 c k i j) (zrange (c_n c))).

(** scipy.interpolate.interp1d(x, y, kind='linear', fill_value='extrapolate')(x0): points sorted by x, the
    bracketing pair is found by searchsorted and clipped to the ends. With a single point the result is not
    a number (0/0); with none, see [compute_gainmap]. *)
Fixpoint insert_pt (p : R * R) (l : list (R * R)) : list (R * R) :=
  match l with
  | [] => [p]
  | q :: l' => if Rleb (fst p) (fst q) then p :: l else q :: insert_pt p l'
  end.
Fixpoint sort_pts (l : list (R * R)) : list (R * R) := match l with [] => [] | p :: l' => insert_pt p (sort_pts l') end.
Definition searchsorted (l : list (R * R)) (x : R) : nat := length (filter (fun p => Rltb (fst p) x) l).
Definition lin_interp (pts : list (R * R)) (x : R) : option R :=
  let l := sort_pts pts in
  let n := length l in
  match n with
  | O | S O => None
  | S (S _) =>
      let hi := Nat.min (Nat.max (searchsorted l x) 1) (n - 1) in
      let lo := (hi - 1)%nat in
      let p := nth lo l (0, 0)%R in let q := nth hi l (0, 0)%R in
      let slope := ((snd q - snd p) / (fst q - fst p))%R in
      Some (slope * (x - fst p) + snd p)%R
  end.
(** gainmap.py:68-120 *)
Definition compute_gainmap (commandMap : arr R) (fnRefCube fnRefCommandVec : fitsdata) : res (arr (option R)) :=
  do dm <- diff_and_mean fnRefCommandVec;                                   (* 98 *)
  do g <- gain_cube fnRefCube fnRefCommandVec;                              (* 99 *)
  check nr commandMap =? c_cols g else ValueError;                          (* 105 *)
  check nc commandMap =? c_rows g else ValueError;                          (* 107 *)
  fill2 None (nr commandMap) (nc commandMap) (fun i j =>                    (* 110-118 *)
    do y <- profile g i j;
    check 0 <? len y else IndexError;                                       (* 118: indexing no points *)
    Ok (lin_interp (combine (snd dm) y) (at2 commandMap i j))).

Section Spline.
  (** The value of the cubic spline through the points at an abscissa within their range. *)
  Variable spline : list (R * R) -> R -> R.
  (** interp1d(x, y, kind='cubic', bounds_error='true')(x0): ValueError for unequal lengths, fewer than four points,
      repeated abscissae, or x0 outside their range. *)
  Definition cubic_interp (xs ys : list R) (x : R) : res R :=
    check Nat.eqb (length xs) (length ys) else ValueError;
    check Nat.leb 4 (length xs) else ValueError;
    check Nat.eqb (length xs) (length (npunique xs)) else ValueError;
    check existsb (fun a => Rleb a x) xs && existsb (fun a => Rleb x a) xs else ValueError;
    Ok (spline (combine xs ys) x).
  (** gm_util.py:56-108 *)
  Definition commands_for_height_map (heightMap : arr R) (fnRefCube fnRefCommandVec : fitsdata) : res (arr R) :=
    do c <- as_cube fnRefCube;                                              (* 86-87 *)
    check nr heightMap =? c_cols c else ValueError;                         (* 88 *)
    check nc heightMap =? c_rows c else ValueError;                         (* 90 *)
    do v <- as_vector fnRefCommandVec;                                      (* 93-94 *)
    do _ <- verify_unique v;
    do _ <- verify_presorted v;
    fill2 0%R (nr heightMap) (nc heightMap) (fun i j =>                     (* 98-106 *)
      do h <- profile c i j; cubic_interp h v (at2 heightMap i j)).
  (** gm_util.py:111-171 *)
  Definition heights_for_command_map (commandMap : arr R) (fnRefCube fnRefCommandVec : fitsdata) : res (arr R) :=
    do c <- as_cube fnRefCube;                                              (* 149-150 *)
    check nr commandMap =? c_cols c else ValueError;                        (* 151 *)
    check nc commandMap =? c_rows c else ValueError;                        (* 153 *)
    do v <- as_vector fnRefCommandVec;                                      (* 156-157 *)
    do _ <- verify_unique v;
    do _ <- verify_presorted v;
    fill2 0%R (nr commandMap) (nc commandMap) (fun i j =>                   (* 161-169 *)
      do h <- profile c i j; cubic_interp v h (at2 commandMap i j)).
  (** np.allclose(a.shape, b.shape) *)
  Definition shape_close {A B} (a : arr A) (b : arr B) : bool :=
    close rtol_default atol_default (IZR (nr a)) (IZR (nr b)) && close rtol_default atol_default (IZR (nc a)) (IZR (nc b)).
  (** a + b for 2-D arrays; allclose shapes that differ do not broadcast. *)
  Definition add2 (f : R -> R -> R) (a b : arr R) : res (arr R) :=
    check same_shape a b else ValueError; Ok (amap2 f a b).
  (** gm_util.py:9-53 *)
  Definition delta_height_map (before after : arr R) (fnRefCube fnRefCommandVec : fitsdata) : res (arr R) :=
    check shape_close before after else ValueError;                         (* 41 *)
    do hb <- heights_for_command_map before fnRefCube fnRefCommandVec;      (* 45 *)
    do ha <- heights_for_command_map after fnRefCube fnRefCommandVec;       (* 48 *)
    add2 Rminus ha hb.                                                      (* 51 *)
  (** gainmap.py:10-65 *)
  Definition starting_commands (flatCommandMap deltaHeightMap : arr R) (fnRefCube fnRefCommandVec : fitsdata)
      : res (arr R) :=
    check shape_close flatCommandMap deltaHeightMap else ValueError;        (* 39 *)
    do flat <- heights_for_command_map flatCommandMap fnRefCube fnRefCommandVec;   (* 43 *)
    do start <- add2 Rplus flat deltaHeightMap;                             (* 46 *)
    do c <- as_cube fnRefCube;                                              (* 52-53 *)
    let hmax i j := at3 c (c_n c - 1) i j in                                (* 54 *)
    let hmin i j := at3 c 0 i j in                                          (* 55 *)
    let s1 := Arr (nr start) (nc start) (fun i j =>                         (* 56-57 *)
      if Rltb (at2 start i j) (hmin i j) then hmin i j else at2 start i j) in
    let s2 := Arr (nr start) (nc start) (fun i j =>                         (* 58-59 *)
      if Rltb (hmax i j) (at2 s1 i j) then hmax i j else at2 s1 i j) in
    commands_for_height_map s2 fnRefCube fnRefCommandVec.                   (* 61-63 *)
End Spline.
