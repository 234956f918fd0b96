(** Zernike modes in double precision: radial polynomials, values. *)
From Coq Require Import ZArith Reals Bool List Lia Lra Psatz.
From Flocq Require Import Core BinarySingleNaN Relative.
From Verif.Base Require Import Py F64 Arr Sums Loop.
From Verif.Model Require Import Math Noll NollF.
From Verif.Spec Require Import MathSpec ZernikeSpec NollFSpec.
From Verif.Proofs Require Import F64P F64N ZernP NollP NollFP.
Import ListNotations.
Local Open Scope R_scope.
Local Notation B := (bpow radix2).

(** ** Radial polynomials *)
Lemma small_mul k v c : 0 <= k <= c -> 0 <= v <= / 1000000000000000 -> 0 <= k * v <= c * / 1000000000000000.
Proof. intros H1 H2. split; [apply Rmult_le_pos; lra|apply Rmult_le_compat; lra]. Qed.
Lemma step_small t s n k v : 0 <= t <= s -> 0 <= n <= 22 -> 0 <= k <= 12 -> 0 <= v <= / 1000000000000000 -> t * (8 * n + 3) * v + k * (3 * s * v) <= s.
Proof.
  intros Ht Hn Hk Hv. pose proof (small_mul n v 22 Hn Hv). pose proof (small_mul k v 12 Hk Hv).
  assert (t * (8 * n + 3) * v <= s * / 2) by (rewrite Rmult_assoc; apply Rmult_le_compat; lra).
  assert (k * (3 * s * v) <= s * / 2) by (replace (k * (3 * s * v)) with (s * (3 * (k * v))) by ring; apply Rmult_le_compat_l; lra). lra.
Qed.
Lemma coef_sum_le n m k : (0 <= k <= (n - m) / 2 + 1)%Z -> rsum (fun k => Rabs (radial_coef n m k)) k <= coef_sum n m.
Proof. intros H. unfold coef_sum. set (N := ((n - m) / 2 + 1)%Z) in *. replace N with (k + (N - k))%Z by lia. rewrite rsum_split by lia.
  assert (0 <= rsum (fun i => Rabs (radial_coef n m (k + i))) (N - k)) by (apply rsum_nonneg; intros; apply Rabs_pos). lra. Qed.
Lemma radial_near g nmax n m r rho : gamma_exact g -> (0 <= m <= n)%Z -> (n <= 22)%Z -> (n <= nmax)%Z -> Z.Even (n - m) ->
  is_finite r = true -> 0 <= rho <= 1 -> Rabs (fval r - rho) <= 4 * u ->
  1 <= coef_sum n m /\ coef_sum n m <= 12 * B 50 /\ Rabs (radial n m rho) <= coef_sum n m /\
  is_finite (radial_value_f g nmax n m r) = true /\ Rabs (fval (radial_value_f g nmax n m r) - radial n m rho) <= coef_sum n m * u * (10 * IZR n + 6).
Proof.
  intros Hg Hm Hn Hx He Fr Hrho Hr. pose proof u_pos as U0. pose proof u_small as U1. set (K := ((n - m) / 2 + 1)%Z).
  assert (K1 : (1 <= K <= 12)%Z) by (unfold K; lia). assert (K2 : 2 * IZR K <= IZR n + 2) by (rewrite <- mult_IZR, <- plus_IZR; apply IZR_le; unfold K; lia).
  assert (N : 0 <= IZR n <= 22) by (split; apply IZR_le; lia).
  set (c := radial_coef n m). set (S := coef_sum n m). set (T := rsum (fun k => Rabs (c k))).
  assert (C : forall k, (0 <= k < K)%Z -> is_finite (coef_f g n m k) = true /\ fval (coef_f g n m k) = c k /\ 1 <= Rabs (c k) <= B 50)
    by (intros k Hk; apply coef_exact; auto; unfold K in Hk; lia).
  assert (TS : forall k, (0 <= k <= K)%Z -> 0 <= T k <= S).
  { intros k Hk. split; [apply rsum_nonneg; intros; apply Rabs_pos|]. apply coef_sum_le. exact Hk. }
  assert (T0 : T 0%Z = 0) by (apply rsum_0; lia).
  assert (Ts : forall k, (0 <= k)%Z -> T (k + 1)%Z = T k + Rabs (c k)) by (intros k Hk; unfold T; rewrite rsum_succ by lia; reflexivity).
  assert (S1 : 1 <= S).
  { destruct (TS 1%Z ltac:(lia)) as [_ H]. eapply Rle_trans; [|exact H]. unfold T. rewrite rsum_one. destruct (C 0%Z ltac:(lia)) as (_ & _ & H' & _). exact H'. }
  assert (S2 : S <= 12 * B 50).
  { assert (G : forall k, (0 <= k)%Z -> (k <= K)%Z -> T k <= IZR k * B 50).
    { intros k Hk. pattern k. apply natlike_ind; auto; clear k Hk; [intros _; rewrite T0; lra|]. intros k Hk IH Hk'. unfold Z.succ. rewrite Ts by lia.
      specialize (IH ltac:(lia)). destruct (C k ltac:(lia)) as (_ & _ & _ & H). rewrite plus_IZR. lra. }
    specialize (G K ltac:(lia) ltac:(lia)). change (T K) with S in G. assert (IZR K <= 12) by (apply IZR_le; lia). pose proof (bpow_gt_0 radix2 50). nra. }
  split; auto. split; auto.
  assert (P : forall k, (0 <= k < K)%Z -> 0 <= rho ^ Z.to_nat (n - 2 * k) <= 1).
  { intros k Hk. split; [apply pow_le; lra|]. rewrite <- (pow1 (Z.to_nat (n - 2 * k))). apply pow_incr. lra. }
  set (A := rsum (fun k => c k * rho ^ Z.to_nat (n - 2 * k))).
  assert (A0 : A 0%Z = 0) by (apply rsum_0; lia).
  assert (As : forall k, (0 <= k)%Z -> A (k + 1)%Z = A k + c k * rho ^ Z.to_nat (n - 2 * k)) by (intros k Hk; unfold A; rewrite rsum_succ by lia; reflexivity).
  assert (AT : forall k, (0 <= k)%Z -> (k <= K)%Z -> Rabs (A k) <= T k).
  { intros k Hk. pattern k. apply natlike_ind; auto; clear k Hk; [intros _; rewrite A0, T0, Rabs_R0; lra|].
    intros k Hk IH Hk'. unfold Z.succ. rewrite As, Ts by lia. eapply Rle_trans; [apply Rabs_triang|]. specialize (IH ltac:(lia)).
    rewrite Rabs_mult, (Rabs_right (rho ^ _)) by (apply Rle_ge, (P k ltac:(lia))). pose proof (P k ltac:(lia)). pose proof (Rabs_pos (c k)). nra. }
  split; [change (radial n m rho) with (A K); eapply Rle_trans; [apply AT; lia|apply TS; lia]|].
  assert (B50 : B 50 <= 1200000000000000) by (change (B 50) with (IZR (2 ^ 50)); apply IZR_le; vm_compute; discriminate).
  assert (G : forall k, (0 <= k)%Z -> (k <= K)%Z ->
    let s := for_range 0 k (fun k rp => fadd rp (fmul (coef_f g n m k) (rpow_table_f nmax r (n - 2 * k)))) fzero in
    is_finite s = true /\ Rabs (fval s - A k) <= T k * (8 * IZR n + 3) * u + IZR k * (3 * S * u)).
  { intros k Hk. pattern k. apply natlike_ind; auto; clear k Hk.
    - intros _. cbn zeta. rewrite for_range_empty by lia. split; auto. rewrite A0, T0. change (fval fzero) with 0.
      rewrite Rminus_0_r, Rabs_R0. lra.
    - intros k Hk IH Hk'. cbn zeta. unfold Z.succ. rewrite for_range_last by lia. destruct (IH ltac:(lia)) as [Fs Vs]. cbn zeta in Fs, Vs.
      set (s := for_range 0 k (fun k rp => fadd rp (fmul (coef_f g n m k) (rpow_table_f nmax r (n - 2 * k)))) fzero) in *. clearbody s. clear IH.
      destruct (C k ltac:(lia)) as (Fc & Vc & C1 & C2). destruct (powers nmax r rho (n - 2 * k) Fr Hrho Hr) as [Fp Vp]; [unfold K in *; lia|lia|].
      set (p := rpow_table_f nmax r (n - 2 * k)) in *. clearbody p. pose proof (P k ltac:(lia)) as Pk. set (q := rho ^ Z.to_nat (n - 2 * k)) in *.
      assert (In : 0 <= IZR (n - 2 * k) <= IZR n) by (split; apply IZR_le; unfold K in *; lia).
      assert (Vp' : Rabs (fval p - q) <= 8 * IZR n * u) by (eapply Rle_trans; [exact Vp|]; nra). clear Vp.
      assert (Sm : 8 * IZR n * u <= / 1000000000) by nra.
      assert (Ap : Rabs (fval p) <= 2) by (replace (fval p) with ((fval p - q) + q) by ring; eapply Rle_trans; [apply Rabs_triang|]; rewrite (Rabs_right q); lra).
      assert (Acp : Rabs (fval (coef_f g n m k) * fval p) <= 2 * Rabs (c k)) by (rewrite Vc, Rabs_mult; pose proof (Rabs_pos (c k)); nra).
      destruct (mul_near (coef_f g n m k) p Fc Fp ltac:(lra)) as [Ft Vt]. set (t := fmul (coef_f g n m k) p) in *. clearbody t. rewrite Vc in Vt, Acp.
      assert (Et : Rabs (fval t - c k * q) <= Rabs (c k) * (8 * IZR n + 3) * u).
      { replace (fval t - c k * q) with ((fval t - c k * fval p) + c k * (fval p - q)) by ring. eapply Rle_trans; [apply Rabs_triang|]. rewrite Rabs_mult.
        assert (u * u <= Rabs (c k) * u) by nra. pose proof (Rabs_pos (c k)). nra. }
      assert (Tk : T (k + 1)%Z = T k + Rabs (c k)) by (apply Ts; lia).
      assert (Ak : A (k + 1)%Z = A k + c k * q) by (apply As; lia).
      pose proof (TS k ltac:(lia)) as T1. pose proof (TS (k + 1)%Z ltac:(lia)) as T2. pose proof (AT (k + 1)%Z ltac:(lia) ltac:(lia)) as A1.
      assert (Ik : 0 <= IZR k <= 12) by (split; apply IZR_le; lia).
      assert (Es : Rabs (fval s + fval t - A (k + 1)%Z) <= T (k + 1)%Z * (8 * IZR n + 3) * u + IZR k * (3 * S * u)).
      { rewrite Ak, Tk. replace (fval s + fval t - (A k + c k * q)) with ((fval s - A k) + (fval t - c k * q)) by ring. eapply Rle_trans; [apply Rabs_triang|].
        pose proof (Rabs_pos (c k)). nra. }
      assert (Sm2 : T (k + 1)%Z * (8 * IZR n + 3) * u + IZR k * (3 * S * u) <= S) by (apply step_small; lra).
      assert (Ast : Rabs (fval s + fval t) <= 2 * S).
      { replace (fval s + fval t) with ((fval s + fval t - A (k + 1)%Z) + A (k + 1)%Z) by ring. eapply Rle_trans; [apply Rabs_triang|]. lra. }
      destruct (add_near s t Fs Ft ltac:(lra)) as [Fa Va]. split; auto.
      replace (fval (fadd s t) - A (k + 1)%Z) with ((fval (fadd s t) - (fval s + fval t)) + (fval s + fval t - A (k + 1)%Z)) by ring.
      eapply Rle_trans; [apply Rabs_triang|]. rewrite plus_IZR. assert (u * u <= S * u) by (apply Rmult_le_compat_r; lra). assert (u * Rabs (fval s + fval t) <= u * (2 * S)) by (apply Rmult_le_compat_l; lra). lra. }
  destruct (G K ltac:(lia) ltac:(lia)) as [F V]. cbn zeta in F, V. unfold radial_value_f. fold K. split; auto. change (radial n m rho) with (A K).
  eapply Rle_trans; [exact V|]. pose proof (TS K ltac:(lia)) as [T0' T1]. assert (0 <= S * u) by (apply Rmult_le_pos; lra).
  assert (T K * (8 * IZR n + 3) * u <= S * (8 * IZR n + 3) * u) by (apply Rmult_le_compat_r; [lra|]; apply Rmult_le_compat_r; lra).
  assert (0 <= S * u * (IZR n + 2 - 2 * IZR K)) by (apply Rmult_le_pos; lra). assert (0 <= S * u * IZR n) by (apply Rmult_le_pos; lra). lra.
Qed.

(** ** Angles *)
Lemma same_angle a b : cos a = cos b -> sin a = sin b -> forall k : nat, cos (INR k * a) = cos (INR k * b) /\ sin (INR k * a) = sin (INR k * b).
Proof.
  intros Hc Hs. induction k as [|k [C1 S1]]; [cbn; rewrite !Rmult_0_l; auto|].
  rewrite S_INR, !Rmult_plus_distr_r, !Rmult_1_l, !cos_plus, !sin_plus, C1, S1, Hc, Hs. auto.
Qed.
Lemma cos_lip a b : Rabs (cos a - cos b) <= Rabs (a - b).
Proof.
  destruct (Req_dec a b) as [->|N]; [rewrite !Rminus_diag_eq, Rabs_R0 by reflexivity; lra|].
  destruct (MVT_abs cos (fun x => - sin x) b a) as (c & E & _); [intros; apply derivable_pt_lim_cos|]. rewrite E, Rabs_Ropp.
  assert (Rabs (sin c) <= 1) by (apply Rabs_le; pose proof (SIN_bound c); lra). pose proof (Rabs_pos (a - b)). nra.
Qed.
Lemma sin_lip a b : Rabs (sin a - sin b) <= Rabs (a - b).
Proof.
  destruct (Req_dec a b) as [->|N]; [rewrite !Rminus_diag_eq, Rabs_R0 by reflexivity; lra|].
  destruct (MVT_abs sin cos b a) as (c & E & _); [intros; apply derivable_pt_lim_sin|]. rewrite E.
  assert (Rabs (cos c) <= 1) by (apply Rabs_le; pose proof (COS_bound c); lra). pose proof (Rabs_pos (a - b)). nra.
Qed.
Lemma sincos_table_f_eq fcos fsin mmax th i : (0 <= i <= mmax)%Z ->
  fst (sincos_table_f fcos fsin mmax th) i = (if (i =? 0)%Z then fadd fzero (fofZ 1) else fcos (fmul (fofZ i) th)) /\
  snd (sincos_table_f fcos fsin mmax th) i = (if (i =? 0)%Z then fadd fzero (fofZ 1) else fsin (fmul (fofZ i) th)).
Proof.
  intros Hi. unfold sincos_table_f.
  pose proof (for_range_inv (fun k t => forall i, (0 <= i < k)%Z ->
    fst t i = (if (i =? 0)%Z then fadd fzero (fofZ 1) else fcos (fmul (fofZ i) th)) /\ snd t i = (if (i =? 0)%Z then fadd fzero (fofZ 1) else fsin (fmul (fofZ i) th)))
    1 (mmax + 1) (fun i t => (upd (fst t) i (fcos (fmul (fofZ i) th)), upd (snd t) i (fsin (fmul (fofZ i) th))))
    (fun _ => fadd fzero (fofZ 1), fun _ => fadd fzero (fofZ 1))) as G.
  apply G; [lia| | |lia].
  - intros k Hk. assert (k = 0%Z) by lia. subst k. auto.
  - intros k t Hk IH l Hl. cbn [fst snd]. destruct (Z.eq_dec l k) as [->|N].
    + rewrite !upd_same. destruct (Z.eqb_spec k 0); [lia|auto].
    + rewrite !upd_other by auto. apply IH. lia.
Qed.
Lemma u_pows : B (-51) = 4 * u /\ B (-52) = 2 * u.
Proof. unfold u. split; [change (-51)%Z with (2 + -53)%Z; rewrite bpow_plus; change (B 2) with 4; ring|change (-52)%Z with (1 + -53)%Z; rewrite bpow_plus; change (B 1) with 2; ring]. Qed.
Lemma trig_near f F t th m : trig_ok f F -> (forall a b, Rabs (F a - F b) <= Rabs (a - b)) ->
  is_finite t = true -> Rabs (fval t - th) <= 4 * u -> Rabs th <= 4 -> (1 <= m <= 22)%Z ->
  is_finite (f (fmul (fofZ m) t)) = true /\ Rabs (fval (f (fmul (fofZ m) t)) - F (IZR m * th)) <= (10 * IZR m + 2) * u.
Proof.
  intros Hf L Ft Ht Hth Hm. pose proof u_pos as U0. pose proof u_small as U1. destruct u_pows as [_ U2].
  assert (M : 1 <= IZR m <= 22) by (split; apply IZR_le; lia). destruct (fofZ_spec m ltac:(lia)) as [Vm Fm].
  assert (At : Rabs (fval t) <= 5) by (replace (fval t) with ((fval t - th) + th) by ring; eapply Rle_trans; [apply Rabs_triang|lra]).
  assert (Am : Rabs (fval (fofZ m) * fval t) <= 5 * IZR m) by (rewrite Vm, Rabs_mult, (Rabs_right (IZR m)) by lra; pose proof (Rabs_pos (fval t)); nra).
  destruct (mul_near (fofZ m) t Fm Ft ltac:(lra)) as [Fa Va]. rewrite Vm in *. set (a := fmul (fofZ m) t) in *. clearbody a.
  assert (Ea : Rabs (fval a - IZR m * th) <= 10 * IZR m * u).
  { replace (fval a - IZR m * th) with ((fval a - IZR m * fval t) + IZR m * (fval t - th)) by ring. eapply Rle_trans; [apply Rabs_triang|].
    rewrite (Rabs_mult (IZR m)), (Rabs_right (IZR m)) by lra.
    assert (u * Rabs (IZR m * fval t) <= u * (5 * IZR m)) by (apply Rmult_le_compat_l; lra).
    assert (IZR m * Rabs (fval t - th) <= IZR m * (4 * u)) by (apply Rmult_le_compat_l; lra).
    assert (u * u <= IZR m * u) by (apply Rmult_le_compat_r; lra). lra. }
  assert (Aa : Rabs (fval a) <= 1024).
  { replace (fval a) with ((fval a - IZR m * fval t) + IZR m * fval t) by ring. eapply Rle_trans; [apply Rabs_triang|].
    assert (u * Rabs (IZR m * fval t) <= 1 * Rabs (IZR m * fval t)) by (apply Rmult_le_compat_r; [apply Rabs_pos|lra]). assert (u * u <= 1 * 1) by (apply Rmult_le_compat; lra). lra. }
  destruct (Hf a Fa Aa) as [F1 F2]. split; auto. rewrite U2 in F2.
  replace (fval (f a) - F (IZR m * th)) with ((fval (f a) - F (fval a)) + (F (fval a) - F (IZR m * th))) by ring.
  eapply Rle_trans; [apply Rabs_triang|]. pose proof (L (fval a) (IZR m * th)). lra.
Qed.

(** ** One mode at one point *)
Lemma norm_near n m : (0 <= n <= 22)%Z -> let s := sqrt (IZR (if (m =? 0)%Z then n + 1 else 2 * (n + 1))) in
  1 <= s <= 46 /\ is_finite (norm_f n m) = true /\ Rabs (fval (norm_f n m) - s) <= 2 * u * s.
Proof.
  intros Hn s. set (N := (if (m =? 0)%Z then n + 1 else 2 * (n + 1))%Z) in *. assert (HN : (1 <= N <= 46)%Z) by (unfold N; destruct (m =? 0)%Z; lia).
  assert (E : norm_f n m = fsqrt (fofZ N)) by (unfold norm_f, N; destruct (m =? 0)%Z; reflexivity). rewrite E. clear E.
  destruct (fofZ_spec N ltac:(lia)) as [V F]. assert (HR : 1 <= IZR N <= 46) by (split; apply IZR_le; lia).
  assert (S1 : 1 <= s) by (rewrite <- sqrt_1; apply sqrt_le_1_alt; lra).
  assert (Sq : s * s = IZR N) by (apply sqrt_sqrt; lra). split; [split; [auto|nra]|].
  destruct (fsqrt_within 3 (fofZ N)) as [V' W']; [lia|split; auto; rewrite V, Rabs_right by lra; change (B (2 * 3)) with 64; lra|lra|].
  split; [apply W'|]. rewrite V', V. fold s. pose proof (rnd_u s) as R1. rewrite (Rabs_right s) in R1 by lra. pose proof u_pos. pose proof u_small.
  assert (u * u <= u * s) by (apply Rmult_le_compat_l; lra). lra.
Qed.
(** Products of approximations. *)
Lemma prod_near p a q b e d A D : Rabs (p - a) <= e -> Rabs (q - b) <= d -> Rabs a <= A -> Rabs b <= D -> 0 <= D ->
  Rabs (p * q - a * b) <= e * (D + d) + A * d.
Proof.
  intros Hp Hq Ha Hb HD. replace (p * q - a * b) with ((p - a) * q + a * (q - b)) by ring.
  eapply Rle_trans; [apply Rabs_triang|]. rewrite !Rabs_mult.
  assert (Rabs q <= D + d) by (replace q with (b + (q - b)) by ring; eapply Rle_trans; [apply Rabs_triang|lra]).
  apply Rplus_le_compat; apply Rmult_le_compat; auto using Rabs_pos.
Qed.
Lemma final_bound S s v n : 1 <= S -> 1 <= s -> 0 <= v <= / 1000000000000000 -> 0 <= n <= 22 ->
  let E := S * v * (10 * n + 6) in let t := (10 * n + 2) * v in let Z := E * (1 + t) + S * t in
  let z := Z + (v * (2 * S) + v * v) in let o := 2 * v * s * (S + z) + s * z in
  Z <= S /\ z <= S /\ o <= s * S /\ o + (v * (2 * (s * S)) + v * v) <= 32 * (n + 1) * v * s * S.
Proof.
  intros HS Hs Hv Hn E t Z z o. pose proof (small_mul n v 22 Hn Hv) as Hnv.
  assert (Ht : 0 <= t <= / 1000000000) by (unfold t; lra).
  assert (P0 : 0 <= S * v) by (apply Rmult_le_pos; lra). assert (P1 : 0 <= S * v * n) by (apply Rmult_le_pos; lra).
  assert (HE0 : 0 <= E) by (unfold E; apply Rmult_le_pos; lra).
  assert (E1 : E * t <= S * v).
  { replace (E * t) with (S * v * ((10 * n + 6) * t)) by (unfold E; ring). rewrite <- (Rmult_1_r (S * v)) at 2. apply Rmult_le_compat_l; auto.
    assert ((10 * n + 6) * t <= 1000 * / 1000000000) by (apply Rmult_le_compat; lra). lra. }
  assert (E2 : v * v <= S * v) by (apply Rmult_le_compat_r; lra).
  assert (HZ : Z <= S * v * (20 * n + 9)) by (unfold Z; replace (S * t) with (S * v * (10 * n + 2)) by (unfold t; ring); unfold E in *; lra).
  assert (Hz : z <= S * v * (20 * n + 12)) by (unfold z; lra).
  assert (Sm : S * v * (20 * n + 12) <= S * / 100).
  { replace (S * v * (20 * n + 12)) with (S * (20 * (n * v) + 12 * v)) by ring. apply Rmult_le_compat_l; lra. }
  assert (Sn : S * v * (20 * n + 9) <= S * v * (20 * n + 12)) by lra.
  assert (P2 : 0 <= s * (S * v)) by (apply Rmult_le_pos; lra).
  assert (P3 : 0 <= s * (S * v * n)) by (apply Rmult_le_pos; lra).
  assert (Ho : o <= s * (S * v) * (20 * n + 15)).
  { assert (2 * v * s * (S + z) <= 2 * v * s * (S + S * / 100)) by (apply Rmult_le_compat_l; [apply Rmult_le_pos; lra|lra]).
    assert (s * z <= s * (S * v * (20 * n + 12))) by (apply Rmult_le_compat_l; lra). unfold o. lra. }
  assert (Sm2 : s * (S * v) * (20 * n + 15) <= s * S * / 100).
  { replace (s * (S * v) * (20 * n + 15)) with (s * S * (20 * (n * v) + 15 * v)) by ring. apply Rmult_le_compat_l; [apply Rmult_le_pos; lra|lra]. }
  assert (P4 : 0 <= s * S) by (apply Rmult_le_pos; lra).
  assert (E3 : v * v <= s * (S * v)) by (apply Rle_trans with (S * v); auto; rewrite <- (Rmult_1_l (S * v)) at 1; apply Rmult_le_compat_r; lra).
  repeat split; lra.
Qed.
Section Value.
Variables (fhypot fatan2 : f64 -> f64 -> f64) (fcos fsin : f64 -> f64) (fgamma : Z -> f64).
Hypothesis (Hh : hypot_ok fhypot) (Ha : atan2_ok fatan2) (Hc : trig_ok fcos cos) (Hs : trig_ok fsin sin) (Hg : gamma_exact fgamma).
Lemma radius_near x y prad rho : is_finite x = true -> is_finite y = true -> is_finite prad = true -> B (-500) <= fval prad <= B 500 ->
  rho = sqrt (fval x * fval x + fval y * fval y) -> rho <= fval prad ->
  is_finite (fdiv (fhypot x y) prad) = true /\ 0 <= rho / fval prad <= 1 /\ Rabs (fval (fdiv (fhypot x y) prad) - rho / fval prad) <= 4 * u.
Proof.
  intros Fx Fy Fp Hp Er Hr. pose proof (bpow_gt_0 radix2 (-500)) as P. pose proof u_pos as U0. pose proof u_small as U1. destruct u_pows as [_ U2].
  assert (R0 : 0 <= rho) by (rewrite Er; apply sqrt_pos).
  assert (Rr : rho * rho = fval x * fval x + fval y * fval y) by (rewrite Er; apply sqrt_sqrt; nra).
  assert (Ax : forall v w, rho * rho = v * v + w * w -> Rabs v <= B 500).
  { intros v w E. apply Rle_trans with rho; [|lra]. apply Rsqr_incr_0; [|apply Rabs_pos|auto]. rewrite <- Rsqr_abs. unfold Rsqr. nra. }
  destruct (Hh x y Fx Fy (Ax _ _ Rr) (Ax (fval y) (fval x) ltac:(lra))) as [Fh Vh]. cbn zeta in Vh. rewrite <- Er, U2 in Vh.
  set (h := fhypot x y) in *. clearbody h. set (p := fval prad) in *.
  assert (Q : 0 <= rho / p <= 1).
  { split; [apply Rmult_le_pos; auto; apply Rlt_le, Rinv_0_lt_compat; lra|]. apply Rmult_le_reg_r with p; [lra|]. unfold Rdiv. rewrite Rmult_assoc, Rinv_l by lra. lra. }
  assert (Tn : B (-1074) * / p <= u * u).
  { apply Rle_trans with (B (-1074) * B 500).
    - apply Rmult_le_compat_l; [apply bpow_ge_0|]. replace (B 500) with (/ B (-500)) by (rewrite <- bpow_opp; reflexivity). apply Rinv_le_contravar; lra.
    - unfold u. rewrite <- !bpow_plus. apply bpow_le. lia. }
  assert (Uu : u * u <= / 100 * u) by (apply Rmult_le_compat_r; lra).
  assert (Hq : Rabs (fval h / p - rho / p) <= 2 * u + / 100 * u).
  { replace (fval h / p - rho / p) with ((fval h - rho) * / p) by (unfold Rdiv; ring). assert (0 < / p) by (apply Rinv_0_lt_compat; lra).
    rewrite Rabs_mult, (Rabs_right (/ p)) by lra.
    apply Rle_trans with ((2 * u * rho + B (-1074)) * / p); [apply Rmult_le_compat_r; lra|].
    assert (2 * u * (rho / p) <= 2 * u * 1) by (apply Rmult_le_compat_l; lra). unfold Rdiv in *. lra. }
  assert (Aq : Rabs (fval h / p) <= 1 + / 100).
  { replace (fval h / p) with ((fval h / p - rho / p) + rho / p) by ring. eapply Rle_trans; [apply Rabs_triang|]. rewrite (Rabs_right (rho / p)) by lra. lra. }
  destruct (fdiv_spec h prad Fh ltac:(fold p; lra)) as [V F]; [apply rnd_fin, B100; fold p; lra|]. fold p in V. split; auto. split; auto. rewrite V.
  replace (rnd64 (fval h / p) - rho / p) with ((rnd64 (fval h / p) - fval h / p) + (fval h / p - rho / p)) by ring.
  eapply Rle_trans; [apply Rabs_triang|]. pose proof (rnd_u (fval h / p)) as R1.
  assert (u * Rabs (fval h / p) <= u * (1 + / 100)) by (apply Rmult_le_compat_l; lra). lra.
Qed.
Lemma mode_near nmax mmax prad j n m x y rho th : noll_index j n m -> (n <= 22)%Z -> (n <= nmax)%Z -> (m <= mmax)%Z ->
  is_finite x = true -> is_finite y = true -> is_finite prad = true -> B (-500) <= fval prad <= B 500 ->
  polar_of (fval x) (fval y) rho th -> rho <= fval prad ->
  let v := zern_value_f fhypot fatan2 fcos fsin fgamma nmax mmax prad j n m x y in
  is_finite v = true /\ Rabs (fval v - noll_zernike j n m (rho / fval prad) th) <= IZR (n + 1) * B (-48) * sqrt (IZR (2 * (n + 1))) * coef_sum n m.
Proof.
  intros Hi Hn Hx Hy Fx Fy Fp Hp Hpol Hr v. pose proof u_pos as U0. pose proof u_small as U1. destruct u_pows as [U4 U2].
  destruct Hi as (Hm & He & Hi').
  assert (Er : rho = sqrt (fval x * fval x + fval y * fval y)).
  { destruct Hpol as (R1 & R2 & R3 & R4). rewrite <- R3, <- R4.
    replace (rho * cos th * (rho * cos th) + rho * sin th * (rho * sin th)) with (rho * rho * (Rsqr (sin th) + Rsqr (cos th))) by (unfold Rsqr; ring).
    rewrite sin2_cos2, Rmult_1_r, sqrt_square; auto. }
  destruct (radius_near x y prad rho Fx Fy Fp Hp Er Hr) as (Fr & Q & Vr). set (q := rho / fval prad) in *.
  destruct (radial_near fgamma nmax n m (fdiv (fhypot x y) prad) q Hg Hm Hn Hx He Fr Q Vr) as (S1 & S2 & RS & FR & VR).
  destruct (norm_near n m ltac:(lia)) as (Hs1 & FN & VN). cbn zeta in Hs1, VN. set (s := sqrt (IZR (if (m =? 0)%Z then n + 1 else 2 * (n + 1)))) in *.
  set (S := coef_sum n m) in *. set (R := radial n m q) in *.
  assert (B50 : B 50 <= 1200000000000000) by (change (B 50) with (IZR (2 ^ 50)); apply IZR_le; vm_compute; discriminate).
  assert (N : 0 <= IZR n <= 22) by (split; apply IZR_le; lia). assert (M : 0 <= IZR m <= IZR n) by (split; apply IZR_le; lia).
  destruct (final_bound S s u (IZR n) S1 (proj1 Hs1) ltac:(lra) N) as (B1 & B2 & B3 & B4). cbn zeta in B1, B2, B3, B4.
  (* the trigonometric factor *)
  set (sc := if (j mod 2 =? 0)%Z then fst (sincos_table_f fcos fsin mmax (fatan2 y x)) m else snd (sincos_table_f fcos fsin mmax (fatan2 y x)) m).
  assert (Tr : exists tr, Rabs tr <= 1 /\ is_finite sc = true /\ Rabs (fval sc - tr) <= (10 * IZR n + 2) * u /\ noll_zernike j n m q th = s * (R * tr)).
  { destruct (sincos_table_f_eq fcos fsin mmax (fatan2 y x) m ltac:(lia)) as [E1 E2]. unfold sc. rewrite E1, E2. clear E1 E2 sc.
    destruct (Ha x y Fx Fy) as (t & T4 & Tc & Ts & Ft & Vt). rewrite <- Er, U4 in *. unfold noll_zernike. fold R.
    assert (EV : Z.even j = (j mod 2 =? 0)%Z) by (rewrite Zmod_even; destruct (Z.even j); reflexivity). rewrite EV.
    destruct (Z.eqb_spec m 0) as [E0|E0].
    - exists 1. destruct one_f as [F1 V1]. rewrite Rabs_R1. split; [lra|]. destruct (j mod 2 =? 0)%Z; (split; [exact F1|split; [rewrite V1, Rminus_diag_eq, Rabs_R0 by reflexivity; apply Rmult_le_pos; lra|]]); unfold s; rewrite plus_IZR; ring.
    - assert (Ang : rho <> 0 -> cos (IZR m * t) = cos (IZR m * th) /\ sin (IZR m * t) = sin (IZR m * th)).
      { intros Nz. destruct Hpol as (_ & _ & P1 & P2). assert (cos t = cos th) by (apply Rmult_eq_reg_l with rho; [congruence|auto]). assert (sin t = sin th) by (apply Rmult_eq_reg_l with rho; [congruence|auto]).
        destruct (same_angle t th H H0 (Z.to_nat m)) as [C1 C2]. rewrite INR_IZR_INZ, Z2Nat.id in C1, C2 by lia. auto. }
      assert (Z0 : rho = 0 -> R = 0).
      { intros Z. unfold R, q. rewrite Z. unfold radial. apply rsum_all_zero. intros k Hk. replace (0 / fval prad) with 0 by (unfold Rdiv; ring). rewrite pow_i by lia. ring. }
      assert (Es : s = sqrt (2 * (IZR n + 1))) by (unfold s; rewrite mult_IZR, plus_IZR; reflexivity).
      destruct (j mod 2 =? 0)%Z.
      + destruct (trig_near fcos cos (fatan2 y x) t m Hc cos_lip Ft Vt T4 ltac:(lia)) as [F1 V1]. exists (cos (IZR m * t)). split; [apply Rabs_le; pose proof (COS_bound (IZR m * t)); lra|].
        split; auto. split; [eapply Rle_trans; [exact V1|apply Rmult_le_compat_r; lra]|]. rewrite <- Es. destruct (Req_dec rho 0) as [Z|Z]; [rewrite (Z0 Z); ring|]. rewrite (proj1 (Ang Z)). ring.
      + destruct (trig_near fsin sin (fatan2 y x) t m Hs sin_lip Ft Vt T4 ltac:(lia)) as [F1 V1]. exists (sin (IZR m * t)). split; [apply Rabs_le; pose proof (SIN_bound (IZR m * t)); lra|].
        split; auto. split; [eapply Rle_trans; [exact V1|apply Rmult_le_compat_r; lra]|]. rewrite <- Es. destruct (Req_dec rho 0) as [Z|Z]; [rewrite (Z0 Z); ring|]. rewrite (proj2 (Ang Z)). ring. }
  destruct Tr as (tr & T1 & Fsc & Vsc & Ez). rewrite Ez.
  assert (Ev : v = fmul (norm_f n m) (fmul (radial_value_f fgamma nmax n m (fdiv (fhypot x y) prad)) sc)) by reflexivity.
  rewrite Ev. clear Ev v. clearbody sc. set (rv := radial_value_f fgamma nmax n m (fdiv (fhypot x y) prad)) in *. clearbody rv. set (nf := norm_f n m) in *. clearbody nf.
  (* radial times angular *)
  assert (Z1 := prod_near (fval rv) R (fval sc) tr _ _ S 1 VR Vsc RS T1 ltac:(lra)).
  assert (Art : Rabs (R * tr) <= S) by (rewrite Rabs_mult, <- (Rmult_1_r S); apply Rmult_le_compat; auto using Rabs_pos).
  assert (Az : Rabs (fval rv * fval sc) <= 2 * S).
  { replace (fval rv * fval sc) with ((fval rv * fval sc - R * tr) + R * tr) by ring. eapply Rle_trans; [apply Rabs_triang|]. lra. }
  destruct (mul_near rv sc FR Fsc ltac:(lra)) as [Fz Vz]. set (z := fmul rv sc) in *. clearbody z.
  assert (Ezz : Rabs (fval z - R * tr) <= S * u * (10 * IZR n + 6) * (1 + (10 * IZR n + 2) * u) + S * ((10 * IZR n + 2) * u) + (u * (2 * S) + u * u)).
  { replace (fval z - R * tr) with ((fval z - fval rv * fval sc) + (fval rv * fval sc - R * tr)) by ring. eapply Rle_trans; [apply Rabs_triang|].
    assert (u * Rabs (fval rv * fval sc) <= u * (2 * S)) by (apply Rmult_le_compat_l; lra). lra. }
  assert (O1 := prod_near (fval nf) s (fval z) (R * tr) _ _ s S VN Ezz ltac:(rewrite Rabs_right; lra) Art ltac:(lra)).
  assert (Ao : Rabs (fval nf * fval z) <= 2 * (s * S)).
  { replace (fval nf * fval z) with ((fval nf * fval z - s * (R * tr)) + s * (R * tr)) by ring. eapply Rle_trans; [apply Rabs_triang|].
    rewrite (Rabs_mult s), (Rabs_right s) by lra. assert (s * Rabs (R * tr) <= s * S) by (apply Rmult_le_compat_l; lra). lra. }
  assert (SS : s * S <= 46 * (12 * 1200000000000000)) by (apply Rmult_le_compat; lra).
  destruct (mul_near nf z FN Fz ltac:(lra)) as [Fo Vo]. split; auto.
  replace (fval (fmul nf z) - s * (R * tr)) with ((fval (fmul nf z) - fval nf * fval z) + (fval nf * fval z - s * (R * tr))) by ring.
  eapply Rle_trans; [apply Rabs_triang|].
  assert (u * Rabs (fval nf * fval z) <= u * (2 * (s * S))) by (apply Rmult_le_compat_l; lra).
  apply Rle_trans with (32 * (IZR n + 1) * u * s * S); [lra|].
  assert (Eu : B (-48) = 32 * u) by (unfold u; change (-48)%Z with (5 + -53)%Z; rewrite bpow_plus; change (B 5) with 32; ring).
  rewrite Eu, plus_IZR.
  assert (Ss : s <= sqrt (IZR (2 * (n + 1)))) by (unfold s; apply sqrt_le_1_alt, IZR_le; destruct (m =? 0)%Z; lia).
  apply Rmult_le_compat_r; [lra|]. replace (32 * (IZR n + 1) * u * s) with ((IZR n + 1) * (32 * u) * s) by ring. apply Rmult_le_compat_l; auto. apply Rmult_le_pos; lra.
Qed.
End Value.
