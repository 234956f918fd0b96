(** The accuracy of the first 45 Zernike modes as a number. *)
From Coq Require Import ZArith Reals Bool List Lia Lra.
From Flocq Require Import Core BinarySingleNaN.
From Verif.Base Require Import Py F64 Arr Sums.
From Verif.Model Require Import Math Noll NollF.
From Verif.Spec Require Import MathSpec ZernikeSpec NollFSpec.
From Verif.Proofs Require Import F64P F64N ZernP NollP NollFP NollFQ NollFR.
Import ListNotations.
Local Open Scope R_scope.
Local Notation B := (bpow radix2).
Definition coef_sumZ (n m : Z) : Z := fold_right Z.add 0%Z (map (fun k => Z.abs (coefZ n m k)) (zrange ((n - m) / 2 + 1))).
Lemma fold_base (l : list R) c : fold_right Rplus 0 l + c = fold_right Rplus c l.
Proof. induction l as [|a l IH]; cbn [fold_right]; [ring|]. rewrite <- IH. ring. Qed.
Lemma rsum_fold f K : (0 <= K)%Z -> rsum (fun k => IZR (f k)) K = IZR (fold_right Z.add 0%Z (map f (zrange K))).
Proof.
  intros H. assert (G : forall l, fold_right Rplus 0 (map (fun k => IZR (f k)) l) = IZR (fold_right Z.add 0%Z (map f l))).
  { induction l as [|k l IH]; [reflexivity|]. cbn [map fold_right]. rewrite IH, plus_IZR. reflexivity. }
  rewrite <- G. clear G. rewrite <- (Z2Nat.id K H). generalize (Z.to_nat K). clear. intros k. induction k as [|k IH]; [reflexivity|].
  replace (Z.of_nat (S k)) with (Z.of_nat k + 1)%Z by lia. rewrite rsum_succ by lia. rewrite IH.
  replace (zrange (Z.of_nat k + 1)) with (zrange (Z.of_nat k) ++ [Z.of_nat k]).
  - rewrite map_app, fold_right_app. cbn [map fold_right]. rewrite Rplus_0_r. apply fold_base.
  - unfold zrange. replace (Z.to_nat (Z.of_nat k + 1)) with (S k) by lia. rewrite Nat2Z.id, seq_S, map_app. reflexivity.
Qed.
Lemma coef_sum_Z n m : (0 <= m <= n)%Z -> (n <= 22)%Z -> Z.Even (n - m) -> coef_sum n m = IZR (coef_sumZ n m).
Proof.
  intros Hm Hn He. unfold coef_sum, coef_sumZ. assert (0 <= (n - m) / 2)%Z by (apply Z.div_pos; lia). rewrite <- rsum_fold by lia. apply rsum_ext. intros k Hk. rewrite abs_IZR, coef_Z by (auto; lia). reflexivity.
Qed.
Definition sums_ok (n : Z) : bool := forallb (fun m => if Z.even (n - m) then (coef_sumZ n m <=? 321)%Z else true) (zrange (n + 1)).
Lemma all_sums : forallb sums_ok (zrange 9) = true. Proof. vm_compute. reflexivity. Qed.
Lemma coef_sum_small n m : (0 <= m <= n)%Z -> (n <= 8)%Z -> Z.Even (n - m) -> coef_sum n m <= 321.
Proof.
  intros Hm Hn He. rewrite coef_sum_Z by (auto; lia). apply IZR_le.
  assert (I1 : (0 <= n < 9)%Z) by lia. assert (I2 : (0 <= m < n + 1)%Z) by lia.
  pose proof (proj1 (forallb_forall sums_ok (zrange 9)) all_sums n (proj2 (in_zrange 9 n) I1)) as H1. unfold sums_ok in H1.
  pose proof (proj1 (forallb_forall _ _) H1 m (proj2 (in_zrange (n + 1) m) I2)) as H2. cbv beta in H2. rewrite (proj2 (Z.even_spec (n - m)) He) in H2. apply Z.leb_le, H2.
Qed.
Lemma bound_small n m : (0 <= m <= n)%Z -> (n <= 8)%Z -> Z.Even (n - m) ->
  IZR (n + 1) * B (-48) * sqrt (IZR (2 * (n + 1))) * coef_sum n m <= / 10000000000.
Proof.
  intros Hm Hn He. pose proof (coef_sum_small n m Hm Hn He) as H. assert (N : 0 <= IZR (n + 1) <= 9) by (split; apply IZR_le; lia).
  assert (S5 : sqrt (IZR (2 * (n + 1))) <= 5) by (rewrite <- (sqrt_square 5) by lra; apply sqrt_le_1_alt; change (5 * 5) with (IZR 5 * IZR 5); rewrite <- mult_IZR; apply IZR_le; lia).
  pose proof (sqrt_pos (IZR (2 * (n + 1)))) as S0. assert (C0 : 0 <= coef_sum n m) by (apply rsum_nonneg; intros; apply Rabs_pos).
  assert (Bu : 0 <= B (-48) <= / 281474976710656) by (change (B (-48)) with (/ IZR (2 ^ 48)); change (IZR (2 ^ 48)) with 281474976710656; lra).
  apply Rle_trans with (9 * / 281474976710656 * 5 * 321); [|lra].
  apply Rmult_le_compat; auto; [repeat apply Rmult_le_pos; lra|]. apply Rmult_le_compat; try lra; [apply Rmult_le_pos; lra|]. apply Rmult_le_compat; lra.
Qed.
Lemma n_small j n m : noll_index j n m -> (j <= 45)%Z -> (0 <= m <= n)%Z /\ (n <= 8)%Z /\ Z.Even (n - m).
Proof. intros (Hm & He & Hi) Hj. split; auto. split; auto. nia. Qed.
From Verif.Spec Require Import RefuseSpec.
From Verif.Proofs Require Import RefuseP NollFEx.
Local Open Scope R_scope.
Lemma xyzern_f_refused fhypot fatan2 fcos fsin fgamma x y prad orders e : (forall j, In j orders -> (j <= 2 ^ 48)%Z) ->
  (xyzern_f fhypot fatan2 fcos fsin fgamma x y prad orders = Err e <->
   refused [(fle prad fzero = false, TypeError); (nr x = nr y /\ nc x = nc y, TypeError); (forall j, In j orders -> (0 < j)%Z, TypeError); (orders <> [], ValueError)] e).
Proof.
  intros B48. unfold xyzern_f. apply check_step; [rewrite negb_true_iff; tauto|]. intros _.
  apply check_step; [unfold same_shape; rewrite andb_true_iff, !Z.eqb_eq; tauto|]. intros _.
  apply check_step; [rewrite forallb_forall; split; intros H j Hj; specialize (H j Hj); apply Z.ltb_lt; exact H|]. intros Hp.
  rewrite decode_ok by (intros j Hj; specialize (Hp j Hj); specialize (B48 j Hj); lia). cbn [bind].
  apply check_step.
  - rewrite negb_true_iff, Z.eqb_neq. destruct orders; cbn [length]; split; intros H; try congruence; lia.
  - intros _. rewrite refused_nil. split; [discriminate|tauto].
Qed.
Lemma xyzern_small fhypot fatan2 fcos fsin fgamma x y prad orders cube k j a n m r c rho th :
  hypot_ok fhypot -> atan2_ok fatan2 -> trig_ok fcos cos -> trig_ok fsin sin -> gamma_exact fgamma ->
  usable_orders orders -> xyzern_f fhypot fatan2 fcos fsin fgamma x y prad orders = Ok cube -> nth_error orders k = Some j -> nth_error cube k = Some a ->
  noll_index j n m -> (j <= 45)%Z -> is_finite prad = true -> B (-500) <= fval prad <= B 500 ->
  in_arr x r c -> is_finite (at2 x r c) = true -> is_finite (at2 y r c) = true ->
  polar_of (fval (at2 x r c)) (fval (at2 y r c)) rho th -> rho <= fval prad ->
  is_finite (at2 a r c) = true /\ Rabs (fval (at2 a r c) - noll_zernike j n m (rho / fval prad) th) <= / 10000000000.
Proof.
  intros Hh Ha Hc Hs Hg U E Hj Hk Hi Hn Fp Hp Hrc Fx Fy Pol Hr. destruct (n_small j n m Hi Hn) as (Hm & Hn8 & He). assert (Hn22 : (n <= 22)%Z) by lia.
  destruct (xyzern_accurate _ _ _ _ _ x y prad orders cube k j a n m r c rho th Hh Ha Hc Hs Hg U E Hj Hk Hi Hn22 Fp Hp Hrc Fx Fy Pol Hr) as (_ & _ & F & V).
  split; auto. eapply Rle_trans; [exact V|]. apply bound_small; auto.
Qed.
(** Non-vacuity: defocus and primary spherical at the rim. *)
Lemma rim_modes : exists a b, xyzern_f hypot_ref atan2_ref cos_ref sin_ref gamma_ref edge_x edge_y (fofZ 1) [4%Z; 11%Z] = Ok [a; b] /\
  Rabs (fval (at2 a 0 0) - sqrt 3) <= / 10000000000 /\ Rabs (fval (at2 b 0 0) - sqrt 5) <= / 10000000000.
Proof.
  assert (U : usable_orders [4%Z; 11%Z]) by (split; [discriminate|]; intros j [<-|[<-|[]]]; lia).
  assert (I4 : noll_index 4 2 0) by (split; [lia|]; split; [exists 1%Z; lia|]; left; split; reflexivity).
  assert (I11 : noll_index 11 4 0) by (split; [lia|]; split; [exists 2%Z; lia|]; left; split; reflexivity).
  destruct (fofZ_spec 1 ltac:(lia)) as [V F].
  pose proof (xyzern_f_eq hypot_ref atan2_ref cos_ref sin_ref gamma_ref edge_x edge_y (fofZ 1) [4%Z; 11%Z] U one_positive eq_refl eq_refl) as E. cbn [map] in E.
  match type of E with _ = Ok [?p; ?q] => exists p, q; set (a := p) in *; set (b := q) in * end. split; [exact E|].
  assert (P : polar_of (fval (at2 edge_x 0 0)) (fval (at2 edge_y 0 0)) 1 0).
  { cbn [at2 edge_x edge_y]. rewrite V. change (fval fzero) with 0. pose proof PI_RGT_0. unfold polar_of. rewrite cos_0, sin_0. repeat split; lra. }
  assert (Hp : B (-500) <= fval (fofZ 1) <= B 500).
  { rewrite V. change 1 with (B 0). split; apply bpow_le; lia. }
  assert (Hr : 1 <= fval (fofZ 1)) by (rewrite V; lra). destruct trig_ref_ok as [Tc Ts].
  assert (In0 : in_arr edge_x 0 0) by (unfold in_arr; cbn; lia).
  assert (Q : forall k j n z, nth_error [4%Z; 11%Z] k = Some j -> nth_error [a; b] k = Some z -> noll_index j n 0 -> (j <= 45)%Z ->
    Rabs (fval (at2 z 0 0) - sqrt (IZR n + 1)) <= / 10000000000).
  { intros k j n z Hk Hz Hi Hj.
    pose proof (xyzern_small _ _ _ _ _ edge_x edge_y (fofZ 1) [4%Z; 11%Z] [a; b] k j z n 0%Z 0%Z 0%Z 1 0 hypot_ref_ok atan2_ref_ok Tc Ts gamma_ref_exact U E Hk Hz Hi Hj F Hp In0 F eq_refl P Hr) as [_ G].
    replace (noll_zernike j n 0 (1 / fval (fofZ 1)) 0) with (sqrt (IZR n + 1)) in G; [exact G|]. unfold noll_zernike. cbn [Z.eqb]. rewrite V. replace (1 / 1) with 1 by field.
    destruct Hi as (A1 & A2 & _). rewrite radial_one by auto. ring. }
  split; [replace 3 with (2 + 1) by ring; apply (Q 0%nat 4%Z 2%Z)|replace 5 with (4 + 1) by ring; apply (Q 1%nat 11%Z 4%Z)]; auto; lia.
Qed.
