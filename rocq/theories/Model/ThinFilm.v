(** Model of coralign/maskgen/util/thinfilm.py. Exact complex arithmetic; index arrays have complex dtype, as
    calc_complex_occulter passes them (for a real dtype numpy's sqrt of a negative number is NaN instead).
    Material tables are arguments. Outputs that numpy computes as NaN or infinity are [None]. *)
From Coq Require Import ZArith Bool List String Reals.
From Coquelicot Require Import Complex.
From Verif.Base Require Import Py CSum.
Import ListNotations.
Open Scope string_scope.
Open Scope list_scope.
Open Scope R_scope.

(** numpy.sqrt on complex numbers: principal branch (imaginary part +0 on the cut). *)
Definition csqrt (z : C) : C :=
  (sqrt ((Cmod z + fst z) / 2), (if Rlt_dec (snd z) 0 then -1 else 1) * sqrt ((Cmod z - fst z) / 2)).
(** numpy.exp on complex numbers. *)
Definition cexp (z : C) : C := (RtoC (exp (fst z)) * cis (snd z))%C.
Definition Ceqb (a b : C) : bool := if Ceq_dec a b then true else false.

(** 2 by 2 complex matrices. *)
Record mat2 := Mat { m00 : C; m01 : C; m10 : C; m11 : C }.
Definition eye2 : mat2 := Mat 1 0 0 1.
Definition mmul (a b : mat2) : mat2 :=
  (Mat (m00 a * m00 b + m01 a * m10 b) (m00 a * m01 b + m01 a * m11 b)
       (m10 a * m00 b + m11 a * m10 b) (m10 a * m01 b + m11 a * m11 b))%C.

(** One medium: index, wave numbers (thinfilm.py:216-221) and thickness (212). *)
Record layer := Layer { l_n : C; l_kz : C; l_kzz : C; l_d : R }.
Definition mk_layer (n0 : C) (theta lam : R) (tetm : bool) (n : C) (d : R) : layer :=
  let kx := (RtoC (2 * PI) * n0 * RtoC (sin theta) / RtoC lam)%C in                       (* 214 *)
  let q := (RtoC (2 * PI) * n / RtoC lam)%C in
  let kz := (- csqrt (q * q - kx * kx))%C in                                              (* 216 *)
  Layer n kz (if tetm then kz / (n * n) else kz)%C d.                                     (* 218-221 *)

(** thinfilm.py:223-229, 233-234: the matrix of medium [a] and its boundary with [b]. *)
Definition film_matrix (a b : layer) : mat2 :=
  let eep := cexp (- Ci * l_kz a * RtoC (l_d a))%C in                                     (* 223 *)
  let eem := cexp (Ci * l_kz a * RtoC (l_d a))%C in                                       (* 224 *)
  let tin := (RtoC (/ 2) * (l_kzz a + l_kzz b) / l_kzz a)%C in                            (* 228 *)
  let ri := ((l_kzz a - l_kzz b) / (l_kzz a + l_kzz b))%C in                              (* 229 *)
  (Mat (tin * eep) (tin * (ri * eep)) (tin * (ri * eem)) (tin * eem))%C.
Definition pairs (ls : list layer) : list (layer * layer) := List.combine ls (List.tl ls).
(** thinfilm.py:231-234 *)
Definition stack_matrix (ls : list layer) : mat2 :=
  fold_left (fun A p => mmul A (film_matrix (fst p) (snd p))) (pairs ls) eye2.

(** No division by zero in 219, 228, 229. *)
Definition boundary_finite (p : layer * layer) : bool :=
  negb (Ceqb (l_kzz (fst p)) 0) && negb (Ceqb (l_kzz (fst p) + l_kzz (snd p))%C 0).
Definition stack_finite (tetm : bool) (ls : list layer) : bool :=
  (if tetm then forallb (fun l => negb (Ceqb (l_n l) 0)) ls else true) && forallb boundary_finite (pairs ls).

Definition nonneg_real (x : R) : bool := if Rle_dec 0 x then true else false.
Definition lt_real (x y : R) : bool := if Rlt_dec x y then true else false.

(** thinfilm.py:163-251. The result is [R, T, rr, tt]; tt is NaN when Pn < 0 (249). *)
Definition solver (n : list C) (d0 : list R) (theta lam : R) (tetm : bool) : res (option (R * R * C * option C)) :=
  check (Z.of_nat (List.length d0) =? Z.of_nat (List.length n) - 2)%Z else ValueError;    (* 199 *)
  check nonneg_real theta else ValueError;                                                (* 202 *)
  check lt_real theta (PI / 2) else ValueError;                                           (* 203 *)
  check lt_real 0 lam else ValueError;                                                    (* 205 *)
  let d := 0 :: d0 ++ [0] in                                                              (* 212 *)
  let n0 := List.hd (RtoC 0) n in
  let ls := map (fun p => mk_layer n0 theta lam tetm (fst p) (snd p)) (List.combine n d) in
  let first := List.hd (mk_layer n0 theta lam tetm n0 0) ls in
  let final := List.last ls first in
  let A := stack_matrix ls in                                                             (* 231-234 *)
  if stack_finite tetm ls && negb (Ceqb (m00 A) 0) then
    let rr := (m10 A / m00 A)%C in                                                        (* 236 *)
    let tt := (1 / m00 A)%C in                                                            (* 237 *)
    let refl := Cmod rr ^ 2 in                                                            (* 241 *)
    let Pn := if tetm                                                                     (* 242-245 *)
              then fst ((l_kz final / (l_n final * l_n final)) / (l_kz first / (l_n first * l_n first)))%C
              else fst (l_kz final / l_kz first)%C in
    let trans := Pn * Cmod tt ^ 2 in                                                      (* 248 *)
    Ok (Some (refl, trans, rr, if Rle_dec 0 Pn then Some (RtoC (sqrt Pn) * tt)%C else None))   (* 249-251 *)
  else Ok None.

(** numpy.interp(x, xp, fp) for increasing xp: constant outside the table, linear inside. *)
Fixpoint np_interp (x0 y0 : R) (pts : list (R * R)) (x : R) : R :=
  match pts with
  | [] => y0
  | (x1, y1) :: pts' => if Rle_dec x x0 then y0
                        else if Rle_dec x x1 then y0 + (y1 - y0) / (x1 - x0) * (x - x0)
                        else np_interp x1 y1 pts' x
  end.
(** A material table: rows (wavelength in nm, n, k), at least one. *)
Record material := Material { mat_first : R * R * R; mat_rest : list (R * R * R) }.
Definition row_x (r : R * R * R) := fst (fst r).
Definition row_n (r : R * R * R) := snd (fst r).
Definition row_k (r : R * R * R) := snd r.
Definition index_of (m : material) (lam_nm : R) : C :=                                    (* 112-113, 122-123, 134 *)
  (np_interp (row_x (mat_first m)) (row_n (mat_first m)) (map (fun r => (row_x r, row_n r)) (mat_rest m)) lam_nm,
   - np_interp (row_x (mat_first m)) (row_k (mat_first m)) (map (fun r => (row_x r, row_k r)) (mat_rest m)) lam_nm).
(** thinfilm.py:87-95: Sellmeier formula; None when a denominator vanishes or the radicand is negative. *)
Definition sellmeier (A1 A2 A3 B1 B2 B3 lam_um2 : R) : option R :=
  if Req_EM_T (lam_um2 - B1) 0 then None else if Req_EM_T (lam_um2 - B2) 0 then None else
  if Req_EM_T (lam_um2 - B3) 0 then None else
  let v := 1 + A1 * lam_um2 / (lam_um2 - B1) + A2 * lam_um2 / (lam_um2 - B2) + A3 * lam_um2 / (lam_um2 - B3) in
  if Rle_dec 0 v then Some (sqrt v) else None.
(** thinfilm.py:100 *)
Definition n_pmgi (lam_um : R) : R := 1524 / 1000 + 5176 / 1000000 / lam_um ^ 2 + 2105 / 10000000 / lam_um ^ 4.

Record film_data := { fd_ti : material; fd_ni : material; fd_fs : R -> option R (** substrate index, lam_um^2 *) }.
Definition cmean (a b : C) : C := ((a + b) / RtoC 2)%C.
(** thinfilm.py:134-158: one pixel. None is NaN. *)
Definition occulter_pixel (fd : film_data) (lam theta d0 : R) (pol : Z) (opd : bool) (nsub : R)
    (dti dni dpm : R) : res (option C * option C) :=
  let lam_nm := lam * 1000000000 in let lam_um := lam * 1000000 in
  let nvec := [RtoC 1; RtoC 1; RtoC (n_pmgi lam_um); index_of (fd_ni fd) lam_nm; index_of (fd_ti fd) lam_nm; RtoC nsub] in  (* 134 *)
  let dvec := [d0 - dpm - dni - dti; dpm; dni; dti] in                                    (* 136 *)
  let conv (z : option C) := match z with Some v => Some (if opd then v else Cconj v) | None => None end in (* 153-158 *)
  let split (o : option (R * R * C * option C)) : option C * option C :=
    match o with Some (_, _, rc, tc) => (Some rc, tc) | None => (None, None) end in
  let both (f : C -> C -> C) (a b : option C) := match a, b with Some x, Some y => Some (f x y) | _, _ => None end in
  if Z.eqb pol 2 then
      do o0 <- solver nvec dvec theta lam false; do o1 <- solver nvec dvec theta lam true; (* 140-143 *)
      let rr := both cmean (fst (split o0)) (fst (split o1)) in                            (* 144 *)
      let tt := both cmean (snd (split o0)) (snd (split o1)) in                            (* 145 *)
      Ok (conv tt, conv rr)
  else
      do o <- solver nvec dvec theta lam (negb (Z.eqb pol 0));                             (* 146-148 *)
      Ok (conv (snd (split o)), conv (fst (split o))).
Fixpoint each {A B} (f : A -> res B) (l : list A) : res (list B) :=
  match l with [] => Ok [] | x :: l' => do y <- f x; do ys <- each f l'; Ok (y :: ys) end.
(** str.upper() on the accepted names changes nothing. *)
Definition accepted (s : string) : bool :=
  (s =? "FS") || (s =? "FUSEDSILICA") || (s =? "NBK7") || (s =? "N-BK7") || (s =? "BK7").
(** thinfilm.py:9-160. Returns (tCoef, rCoef). A NaN substrate index makes every
    coefficient NaN. *)
Definition calc_complex_occulter (fd : film_data) (lam aoi : R) (tTi tNi tPMGI : list R) (d0 : R) (pol : Z)
    (opd : bool) (substrate : string) : res (list (option C) * list (option C)) :=
  check lt_real 0 lam else ValueError;                                                    (* 52 *)
  check nonneg_real aoi else ValueError;                                                  (* 53 *)
  check lt_real aoi 90 else ValueError;                                                   (* 54 *)
  check Nat.eqb (List.length tTi) (List.length tNi) && Nat.eqb (List.length tNi) (List.length tPMGI) else ValueError;   (* 59 *)
  check lt_real 0 d0 else ValueError;                                                     (* 62 *)
  check (pol =? 0)%Z || (pol =? 1)%Z || (pol =? 2)%Z else ValueError;                     (* 64 *)
  check accepted substrate else ValueError;                                               (* 70 *)
  let theta := aoi * (PI / 180) in                                                        (* 76 *)
  check (substrate =? "FS") || (substrate =? "FUSEDSILICA") else ValueError;              (* 83, 96-97 *)
  do out <- each (fun p : R * R * R =>
      match fd_fs fd ((lam * 1000000) * (lam * 1000000)) with
      | Some nsub => occulter_pixel fd lam theta d0 pol opd nsub (fst (fst p)) (snd (fst p)) (snd p)
      | None => Ok (None, None)
      end) (List.combine (List.combine tTi tNi) tPMGI);                                   (* 129-158 *)
  Ok (map fst out, map snd out).

(** coralign/maskgen/materialdata/titanium_data_from_PBJohnsonAndRWChristy1974.txt, every row, as exact decimals. *)
Definition titanium : material := Material (397, 52/25, 59/20)
  [(413, 107/50, 149/50); (431, 221/100, 301/100); (451, 227/100, 76/25); (471, 23/10, 31/10);
   (496, 59/25, 319/100); (521, 61/25, 16/5); (549, 127/50, 343/100); (582, 13/5, 179/50);
   (617, 267/100, 187/50); (659, 69/25, 96/25); (704, 143/50, 99/25); (756, 3, 401/100);
   (821, 321/100, 401/100); (892, 329/100, 99/25); (984, 67/20, 397/100); (1088, 7/2, 201/50);
   (1216, 181/50, 83/20)].

(** coralign/maskgen/materialdata/nickel_data_from_Palik_via_Bala_wvlNM_n_k.txt, every row, as exact decimals. *)
Definition nickel : material := Material (1512/5, 87/50, 199/100)
  [(310, 173/100, 99/50); (3179/10, 43/25, 99/50); (3263/10, 169/100, 199/100); (3351/10, 83/50, 101/50);
   (1722/5, 41/25, 207/100); (1771/5, 163/100, 211/100); (3647/10, 81/50, 217/100); (3757/10, 161/100, 223/100);
   (775/2, 161/100, 23/10); (400, 161/100, 59/25); (4133/10, 161/100, 61/25); (855/2, 81/50, 63/25);
   (2214/5, 81/50, 261/100); (2296/5, 41/25, 271/100); (4769/10, 83/50, 281/100); (4959/10, 167/100, 293/100);
   (2583/5, 171/100, 153/50); (5391/10, 7/4, 319/100); (2818/5, 9/5, 333/100); (2952/5, 37/20, 87/25);
   (6199/10, 193/100, 73/20); (636, 99/50, 187/50); (653, 101/50, 191/50); (670, 52/25, 391/100);
   (689, 107/50, 4); (709, 221/100, 409/100); (729, 57/25, 209/50); (751, 59/25, 17/4);
   (775, 243/100, 431/100); (800, 62/25, 219/50); (827, 253/100, 447/100); (855, 259/100, 91/20);
   (886, 53/20, 463/100); (918, 269/100, 473/100); (954, 137/50, 97/20); (992, 14/5, 497/100);
   (1033, 57/20, 51/10); (1078, 291/100, 131/25); (1127, 297/100, 269/50); (1181, 301/100, 111/20);
   (1240, 153/50, 287/50); (1305, 311/100, 299/50); (1378, 159/50, 623/100); (1459, 327/100, 651/100);
   (1550, 169/50, 341/50); (1653, 349/100, 713/100); (1771, 359/100, 187/25); (1907, 369/100, 198/25);
   (2066, 96/25, 167/20); (2254, 39/10, 223/25); (2480, 403/100, 241/25); (2755, 21/5, 51/5);
   (3100, 96/25, 57/5); (3263, 98/25, 121/10); (3444, 4, 127/10); (3647, 407/100, 67/5);
   (3875, 103/25, 71/5); (4133, 419/100, 15); (4428, 43/10, 16); (4769, 429/100, 171/10);
   (5166, 104/25, 92/5); (5636, 411/100, 101/5); (6199, 103/25, 45/2); (6526, 43/10, 119/5);
   (6888, 89/20, 126/5); (7293, 117/25, 134/5); (7749, 5, 143/5); (8266, 109/20, 153/5);
   (8856, 583/100, 164/5); (9537, 161/25, 353/10); (10330, 711/100, 383/10); (11270, 203/25, 209/5);
   (12400, 477/50, 229/5)].

(** coralign/maskgen/materialdata/fused_silica_Sellmeier_coefficients_from_Corning_website.txt, as exact decimals. *)
Definition fused_silica : R -> option R :=
  sellmeier (341870247/500000000) (420323613/1000000000) (14625687/25000000) (460352869/100000000000) (16746107/1250000000) (161233183/2500000).
(** The data files shipped with the package. *)
Definition shipped : film_data := {| fd_ti := titanium; fd_ni := nickel; fd_fs := fused_silica |}.
