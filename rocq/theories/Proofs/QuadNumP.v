(** Energy balance of images of any sum. *)
From Coq Require Import ZArith Bool List Reals Lia Lra.
From Verif.Base Require Import Py Arr Sums Lstsq.
From Verif.Model Require Import Fits FocalFit QuadNum.
From Verif.Spec Require Import FitsSpec.
From Verif.Proofs Require Import FitsP.
Import ListNotations.
Open Scope Z_scope.

Lemma nsum_fin {A} (f : A -> R) l : nsum (map (fun p => Fin (f p)) l) = Fin (lsum f l).
Proof. induction l as [|x l IH]; [reflexivity|]. cbn. fold (nsum (map (fun p => Fin (f p)) l)). rewrite IH. reflexivity. Qed.
Lemma lsum_filter {A} (f : A -> R) (c : A -> bool) l : lsum f (filter c l) = lsum (fun p => if c p then f p else 0%R) l.
Proof. induction l as [|x l IH]; [reflexivity|]. cbn. destruct (c x); cbn; rewrite IH; [reflexivity|ring]. Qed.
Lemma lsum_indices (f : Z -> Z -> R) n m : lsum (fun p => f (fst p) (snd p)) (indices n m) = rsum2 f n m.
Proof.
  unfold indices, rsum2, rsum, gsum, zrange. generalize (Z.to_nat n). generalize (Z.to_nat m). intros C Rn.
  assert (G : forall r, lsum (fun p => f (fst p) (snd p)) (map (fun c => (r, c)) (map Z.of_nat (seq 0 C))) = gnsum R 0%R Rplus (fun c => f r c) C).
  { intros r. induction C as [|C IH]; [reflexivity|]. rewrite seq_S, !map_app, lsum_app. cbn [gnsum]. rewrite <- IH. f_equal. cbn. ring. }
  induction Rn as [|Rn IH]; [reflexivity|]. rewrite seq_S, map_app. cbn [gnsum].
  assert (LP : forall (l1 l2 l : list Z), list_prod (l1 ++ l2) l = list_prod l1 l ++ list_prod l2 l).
  { clear. induction l1 as [|x l1 IH]; intros; cbn; auto. rewrite IH, app_assoc. reflexivity. }
  rewrite LP, lsum_app, IH. f_equal. cbn [list_prod map Nat.add]. rewrite app_nil_r. apply G.
Qed.
Lemma quad_num_finite image x0 y0 radius : energy_sum image <> 0%R ->
  quadrant_energy_balance_num image x0 y0 radius =
  match quadrant_energy_balance image x0 y0 radius with Ok (bx, by_) => Ok (Fin bx, Fin by_) | Err e => Err e end.
Proof.
  intros HE. unfold quadrant_energy_balance_num, quadrant_energy_balance, guard, energy_sum in *.
  destruct (Rleb 0 radius); [|reflexivity]. cbn [bind]. destruct (0 <=? x0); [|reflexivity]. cbn [bind]. destruct (0 <=? y0); [|reflexivity]. cbn [bind].
  destruct (x0 <? nr image); [|reflexivity]. cbn [bind]. destruct (y0 <? nc image); [|reflexivity]. cbn [bind].
  set (total := rsum2 (at2 image) (nr image) (nc image)) in *.
  assert (C : forall c : Z * Z -> bool, nsum (map (fun p => ndiv (at2 image (fst p) (snd p)) total) (filter c (indices (nr image) (nc image)))) =
    Fin (rsum2 (fun i j => if c (i, j) then (at2 image i j / total)%R else 0%R) (nr image) (nc image))).
  { intros c. rewrite (map_ext _ (fun p => Fin (at2 image (fst p) (snd p) / total)%R)).
    - rewrite nsum_fin, lsum_filter, <- lsum_indices. f_equal. apply lsum_ext. intros [i j] _. reflexivity.
    - intros p. unfold ndiv. destruct (Req_EM_T total 0); [contradiction|reflexivity]. }
  rewrite !C. reflexivity.
Qed.
Lemma nsum_nan l : In NaN l -> nsum l = NaN.
Proof. induction l as [|x l IH]; [intros []|intros [->|H]]; cbn; [reflexivity|]. fold (nsum l). rewrite (IH H). destruct x; reflexivity. Qed.
Lemma nsum_pinf l : In PInf l -> nsum l = PInf \/ nsum l = NaN.
Proof.
  induction l as [|x l IH]; [intros []|intros [->|H]]; cbn; fold (nsum l).
  - destruct (nsum l); auto.
  - destruct (IH H) as [-> | ->]; destruct x; auto.
Qed.
Lemma nsum_ninf l : In NInf l -> nsum l = NInf \/ nsum l = NaN.
Proof.
  induction l as [|x l IH]; [intros []|intros [->|H]]; cbn; fold (nsum l).
  - destruct (nsum l); auto.
  - destruct (IH H) as [-> | ->]; destruct x; auto.
Qed.
Lemma quad_num_zero image x0 y0 radius : (0 <= radius)%R -> 0 <= x0 < nr image -> 0 <= y0 < nc image ->
  x0 < nc image -> y0 < nr image -> energy_sum image = 0%R ->
  quadrant_energy_balance_num image x0 y0 radius = Ok (NaN, NaN).
Proof.
  intros Hr Hx Hy Hx' Hy' HE. unfold quadrant_energy_balance_num, guard, energy_sum in *.
  replace (Rleb 0 radius) with true by (unfold Rleb; destruct (Rle_dec 0 radius); [reflexivity|contradiction]).
  rewrite (proj2 (Z.leb_le 0 x0)), (proj2 (Z.leb_le 0 y0)), (proj2 (Z.ltb_lt x0 _)), (proj2 (Z.ltb_lt y0 _)) by lia. cbn [bind].
  rewrite HE. set (norm := fun p : Z * Z => ndiv (at2 image (fst p) (snd p)) 0).
  assert (I : forall c : Z * Z -> bool, c (y0, x0) = true -> In (norm (y0, x0)) (map norm (filter c (indices (nr image) (nc image))))).
  { intros c Hc. apply in_map, filter_In. split; auto. apply in_indices. split; cbn; lia. }
  assert (R0 : Rleb (sqrt (IZR (x0 - x0) ^ 2 + IZR (y0 - y0) ^ 2)) radius = true).
  { rewrite !Z.sub_diag. replace (0 ^ 2 + 0 ^ 2)%R with 0%R by ring. rewrite sqrt_0. unfold Rleb. destruct (Rle_dec 0 radius); [reflexivity|contradiction]. }
  match goal with |- Ok (nsub (nadd ?a ?b) (nadd ?c ?d), _) = _ => set (q1 := a); set (q3 := b); set (q2 := c); set (q4 := d) end.
  assert (N : norm (y0, x0) = NaN \/ norm (y0, x0) = PInf \/ norm (y0, x0) = NInf).
  { unfold norm, ndiv. destruct (Req_EM_T 0 0); [|contradiction]. destruct (Req_EM_T _ 0); auto. destruct (Rltb _ _); auto. }
  assert (J : forall c : Z * Z -> bool, c (y0, x0) = true -> 
    (norm (y0, x0) = NaN -> nsum (map norm (filter c (indices (nr image) (nc image)))) = NaN) /\
    (norm (y0, x0) = PInf -> nsum (map norm (filter c (indices (nr image) (nc image)))) = PInf \/ nsum (map norm (filter c (indices (nr image) (nc image)))) = NaN) /\
    (norm (y0, x0) = NInf -> nsum (map norm (filter c (indices (nr image) (nc image)))) = NInf \/ nsum (map norm (filter c (indices (nr image) (nc image)))) = NaN)).
  { intros c Hc. specialize (I c Hc). repeat split; intros E; rewrite E in I; [apply nsum_nan|apply nsum_pinf|apply nsum_ninf]; auto. }
  assert (B : forall z, z = 0 -> (0 <=? z) = true /\ (z <=? 0) = true) by (intros z ->; auto).
  destruct (B (x0 - x0)) as [X1 X2]; [lia|]. destruct (B (y0 - y0)) as [Y1 Y2]; [lia|].
  assert (Q1 := J (fun p => (0 <=? snd p - x0) && (0 <=? fst p - y0) && Rleb (sqrt (IZR (snd p - x0) ^ 2 + IZR (fst p - y0) ^ 2)) radius)).
  assert (Q2 := J (fun p => (snd p - x0 <=? 0) && (0 <=? fst p - y0) && Rleb (sqrt (IZR (snd p - x0) ^ 2 + IZR (fst p - y0) ^ 2)) radius)).
  assert (Q3 := J (fun p => (0 <=? snd p - x0) && (fst p - y0 <=? 0) && Rleb (sqrt (IZR (snd p - x0) ^ 2 + IZR (fst p - y0) ^ 2)) radius)).
  assert (Q4 := J (fun p => (snd p - x0 <=? 0) && (fst p - y0 <=? 0) && Rleb (sqrt (IZR (snd p - x0) ^ 2 + IZR (fst p - y0) ^ 2)) radius)).
  cbn [fst snd] in Q1, Q2, Q3, Q4. rewrite X1, Y1, R0 in Q1. rewrite X2, Y1, R0 in Q2. rewrite X1, Y2, R0 in Q3. rewrite X2, Y2, R0 in Q4.
  specialize (Q1 eq_refl). specialize (Q2 eq_refl). specialize (Q3 eq_refl). specialize (Q4 eq_refl).
  change (nsum _) with q1 in Q1. change (nsum _) with q2 in Q2. change (nsum _) with q3 in Q3. change (nsum _) with q4 in Q4.
  clearbody q1 q2 q3 q4.
  destruct N as [N|[N|N]].
  - rewrite (proj1 Q1 N), (proj1 Q2 N), (proj1 Q3 N), (proj1 Q4 N). reflexivity.
  - destruct (proj1 (proj2 Q1) N) as [-> | ->], (proj1 (proj2 Q2) N) as [-> | ->], (proj1 (proj2 Q3) N) as [-> | ->], (proj1 (proj2 Q4) N) as [-> | ->]; reflexivity.
  - destruct (proj2 (proj2 Q1) N) as [-> | ->], (proj2 (proj2 Q2) N) as [-> | ->], (proj2 (proj2 Q3) N) as [-> | ->], (proj2 (proj2 Q4) N) as [-> | ->]; reflexivity.
Qed.
Lemma quad_num_ex : quadrant_energy_balance_num (afull 3 3 0%R) 1 1 2 = Ok (NaN, NaN) /\
  quadrant_energy_balance_num (Arr 2 2 (fun i j => if i =? j then 1 else -1)%R) 0 1 1 = Ok (NaN, NaN).
Proof.
  split; apply quad_num_zero; cbn [nr nc afull]; try lia; try lra.
  - unfold energy_sum. apply rsum2_all_zero. reflexivity.
  - unfold energy_sum, rsum2. cbn [nr nc]. change 2 with (0 + 1 + 1). rewrite !rsum_succ by lia. rewrite !rsum_0 by lia. cbn. ring.
Qed.
