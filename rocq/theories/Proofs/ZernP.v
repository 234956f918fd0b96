From Coq Require Import ZArith Reals List Bool Lia Lra Psatz Permutation.
From Flocq Require Import Core.
From Verif.Base Require Import Py Arr Sums Loop Trig Lstsq.
From Verif.Model Require Import Math Noll.
From Verif.Spec Require Import MathSpec ZernikeSpec.
From Verif.Proofs Require Import MathP NollP.
Import ListNotations.
Ltac Zify.zify_post_hook ::= Z.div_mod_to_equations.
Open Scope Z_scope.

(** ** Tables *)
Lemma rpow_table_ok nmax r i : 0 <= i <= nmax -> rpow_table nmax r i = (r ^ Z.to_nat i)%R.
Proof.
  intros H. unfold rpow_table.
  assert (G : (fun k (t : Z -> R) => forall i, 0 <= i < k -> t i = (r ^ Z.to_nat i)%R)
    (nmax + 1) (for_range 1 (nmax + 1) (fun i t => upd t i (t (i - 1)%Z * r)%R) (fun _ => 1%R))).
  { apply (for_range_inv (fun k (t : Z -> R) => forall i, 0 <= i < k -> t i = (r ^ Z.to_nat i)%R)).
    - lia.
    - intros k Hk. replace k with 0 by lia. reflexivity.
    - intros k t Hk IH i' Hi. destruct (Z.eq_dec i' k) as [->|N].
      + rewrite upd_same, IH by lia. replace (Z.to_nat k) with (S (Z.to_nat (k - 1))) by lia.
        cbn [pow]. ring.
      + rewrite upd_other by auto. apply IH. lia. }
  apply G. lia.
Qed.
Lemma sincos_table_ok mmax th i : 0 <= i <= mmax ->
  fst (sincos_table mmax th) i = (if i =? 0 then 1 else cos (IZR i * th))%R /\
  snd (sincos_table mmax th) i = (if i =? 0 then 1 else sin (IZR i * th))%R.
Proof.
  intros H. unfold sincos_table.
  set (I := fun k (t : (Z -> R) * (Z -> R)) => forall i, 0 <= i < k ->
     fst t i = (if i =? 0 then 1 else cos (IZR i * th))%R /\
     snd t i = (if i =? 0 then 1 else sin (IZR i * th))%R).
  match goal with |- context [for_range ?a ?b ?f ?s] => assert (G : I (mmax + 1) (for_range a b f s)) end.
  { apply for_range_inv.
    - lia.
    - intros k Hk. replace k with 0 by lia. split; reflexivity.
    - intros k t Hk IH i' Hi. cbn [fst snd]. destruct (Z.eq_dec i' k) as [->|N].
      + rewrite !upd_same. destruct (Z.eqb_spec k 0); [lia|]. split; reflexivity.
      + rewrite !upd_other by auto. apply IH. lia. }
  apply G. lia.
Qed.

Lemma zfact_0 : zfact 0 = 1%R. Proof. reflexivity. Qed.
Lemma zfact_succ k : 0 <= k -> zfact (k + 1) = (IZR (k + 1) * zfact k)%R.
Proof.
  intros H. unfold zfact. replace (Z.to_nat (k + 1)) with (S (Z.to_nat k)) by lia.
  rewrite fact_simpl, mult_INR. f_equal. rewrite INR_IZR_INZ. f_equal. lia.
Qed.
Lemma zfact_pos k : (0 < zfact k)%R.
Proof. unfold zfact. apply lt_0_INR, lt_O_fact. Qed.

Lemma coef_tables_ok n m k : 0 <= m <= n -> Z.Even (n - m) -> 0 <= k <= (n - m) / 2 ->
  let t := coef_tables n m in
  rnum t k = ((-1) ^ Z.to_nat k * zfact (n - k))%R /\ rden0 t k = zfact k /\
  rden1 t k = zfact ((n + m) / 2 - k) /\ rden2 t k = zfact ((n - m) / 2 - k).
Proof.
  intros Hm He Hk. cbv zeta. unfold coef_tables.
  set (kmax := (n - m) / 2) in *.
  set (I := fun s (t : tables) =>
    (forall k, kmax - s < k <= kmax ->
      rnum t k = ((-1) ^ Z.to_nat k * zfact (n - k))%R /\
      rden1 t k = zfact ((n + m) / 2 - k) /\ rden2 t k = zfact (kmax - k)) /\
    (forall k, 0 <= k < s -> rden0 t k = zfact k)).
  match goal with |- context [for_range ?a ?b ?f ?s] => assert (G : I (kmax + 1) (for_range a b f s)) end.
  { apply for_range_inv.
    - lia.
    - split; cbn [rnum rden0 rden1 rden2].
      + intros k' Hk'. replace k' with kmax by lia. rewrite !upd_same.
        unfold gamma_int, zfact.
        replace (n - kmax + 1 - 1) with (n - kmax) by lia.
        replace ((n + m) / 2 - kmax + 1 - 1) with ((n + m) / 2 - kmax) by lia.
        replace (kmax - kmax + 1 - 1) with (kmax - kmax) by lia.
        repeat split; ring.
      + intros k' Hk'. replace k' with 0 by lia. rewrite upd_same. reflexivity.
    - intros s t Hs [IH1 IH2]. split; cbn [rnum rden0 rden1 rden2].
      + intros k' Hk'. destruct (Z.eq_dec k' (kmax - s)) as [->|N].
        * rewrite !upd_same. destruct (IH1 (kmax - s + 1)) as (A & B & C); [lia|].
          rewrite A, B, C. set (q := kmax - s) in *.
          assert (0 <= q) by lia. replace (Z.to_nat (q + 1)) with (S (Z.to_nat q)) by lia.
          replace (n - q) with (n - (q + 1) + 1) by lia.
          replace ((n + m) / 2 - q) with ((n + m) / 2 - (q + 1) + 1) by lia.
          replace (kmax - q) with (kmax - (q + 1) + 1) by lia.
          rewrite !zfact_succ by lia. rewrite <- minus_IZR.
          replace (n - (q + 1) + 1) with (n - q) by lia. cbn [pow].
          repeat split; ring.
        * rewrite !upd_other by auto. apply IH1. lia.
      + intros k' Hk'. destruct (Z.eq_dec k' s) as [->|N].
        * rewrite upd_same, IH2 by lia. replace s with ((s - 1) + 1) at 2 3 by lia.
          rewrite (zfact_succ (s - 1)) by lia. ring.
        * rewrite upd_other by auto. apply IH2. lia. }
  destruct G as [G1 G2]. specialize (G1 k ltac:(lia)). specialize (G2 k ltac:(lia)). tauto.
Qed.

Lemma for_range_rsum (f : Z -> R) n : 0 <= n ->
  for_range 0 n (fun k acc => (acc + f k)%R) 0%R = rsum f n.
Proof.
  intros H. apply (for_range_inv (fun k acc => acc = rsum f k)); auto.
  intros k s Hk ->. rewrite rsum_succ by lia. reflexivity.
Qed.

Lemma radial_value_ok nmax n m r : 0 <= m <= n -> Z.Even (n - m) -> n <= nmax ->
  radial_value nmax n m r = radial n m r.
Proof.
  intros Hm He Hn. unfold radial_value, radial.
  rewrite (for_range_rsum (fun k => rnum (coef_tables n m) k /
     (rden0 (coef_tables n m) k * rden1 (coef_tables n m) k * rden2 (coef_tables n m) k)
     * rpow_table nmax r (n - 2 * k)%Z)%R) by lia.
  apply rsum_ext. intros k Hk.
  destruct (coef_tables_ok n m k Hm He ltac:(lia)) as (A & B & C & D). rewrite A, B, C, D.
  rewrite rpow_table_ok by lia. reflexivity.
Qed.

Lemma zern_value_ok nmax mmax prad j n m x y rho th :
  noll_index j n m -> n <= nmax -> m <= mmax -> (0 < prad)%R -> polar_of x y rho th ->
  zern_value nmax mmax prad j x y = noll_zernike j n m (rho / prad) th.
Proof.
  intros Hi Hn Hm Hp Hpol.
  assert (Hj : 1 <= j) by (eapply noll_index_pos; eauto).
  destruct (proj2 (noll_decode_iff j n m Hj) Hi) as [En Em].
  destruct Hi as (Hr & He & _).
  assert (Hrho : rho = sqrt (x * x + y * y)).
  { destruct Hpol as (R1 & R2 & R3 & R4). rewrite <- R3, <- R4.
    replace (rho * cos th * (rho * cos th) + rho * sin th * (rho * sin th))%R
      with (rho * rho * (Rsqr (sin th) + Rsqr (cos th)))%R by (unfold Rsqr; ring).
    rewrite sin2_cos2, Rmult_1_r, sqrt_square; auto. }
  unfold zern_value. rewrite En, Em. rewrite radial_value_ok by auto. rewrite <- Hrho.
  destruct (sincos_table_ok mmax (arctan2 y x) m ltac:(lia)) as [S1 S2]. rewrite S1, S2.
  unfold noll_zernike.
  assert (EV : Z.even j = (j mod 2 =? 0)).
  { rewrite Zmod_even. destruct (Z.even j); reflexivity. }
  rewrite EV. rewrite mult_IZR, plus_IZR.
  destruct (Z.eqb_spec m 0) as [E0|E0].
  - subst m. destruct (j mod 2 =? 0); ring.
  - destruct (Req_dec rho 0) as [R0|R0].
    + (* at the origin the radial part vanishes because m > 0 *)
      assert (Z0 : radial n m (rho / prad) = 0%R).
      { rewrite R0. unfold radial. apply rsum_all_zero. intros k Hk.
        replace (0 / prad)%R with 0%R by (unfold Rdiv; ring).
        rewrite pow_i by lia. ring. }
      rewrite Z0. destruct (j mod 2 =? 0); ring.
    + assert (ET : arctan2 y x = th).
      { assert (x <> 0 \/ y <> 0)%R.
        { destruct (Req_dec x 0) as [->|]; auto. destruct (Req_dec y 0) as [->|]; auto.
          exfalso. apply R0. rewrite Hrho. replace (0 * 0 + 0 * 0)%R with 0%R by ring. apply sqrt_0. }
        destruct (polar_unique x y _ _ _ _ H (polar_ok x y) Hpol) as [_ K]. exact K. }
      rewrite ET. destruct (j mod 2 =? 0); ring.
Qed.

(** ** R_n^m(1) = 1 *)
Fixpoint bin (n k : nat) : Z :=
  match n, k with
  | _, O => 1
  | O, S _ => 0
  | S n', S k' => bin n' k' + bin n' (S k')
  end.
Lemma bin_0 n : bin n 0 = 1. Proof. destruct n; reflexivity. Qed.
Lemma bin_small n : forall k, (n < k)%nat -> bin n k = 0.
Proof.
  induction n as [|n IH]; destruct k; cbn; intros; auto; try lia. rewrite !IH by lia. reflexivity.
Qed.
Lemma bin_diag n : bin n n = 1.
Proof. induction n as [|n IH]; cbn; auto. rewrite IH, bin_small by lia. reflexivity. Qed.
Lemma bin_fact n : forall k, (k <= n)%nat ->
  (IZR (bin n k) * (INR (fact k) * INR (fact (n - k))) = INR (fact n))%R.
Proof.
  induction n as [|n IH]; intros k Hk.
  - replace k with O by lia. cbn. ring.
  - destruct k as [|k].
    + rewrite bin_0. rewrite Nat.sub_0_r. cbn [fact]. change (INR 1) with 1%R. ring.
    + change (bin (S n) (S k)) with (bin n k + bin n (S k)). rewrite plus_IZR.
      destruct (Nat.eq_dec k n) as [->|N].
      * rewrite (bin_small n (S n)) by lia. rewrite bin_diag. rewrite Nat.sub_diag. cbn [fact INR]. ring.
      * pose proof (IH k ltac:(lia)) as A. pose proof (IH (S k) ltac:(lia)) as B.
        replace (S n - S k)%nat with (n - k)%nat by lia.
        replace (n - k)%nat with (S (n - S k)) in A |- * by lia.
        rewrite !fact_simpl, !mult_INR in *.
        assert (E : INR (S n) = (INR (S k) + INR (S (n - S k)))%R).
        { rewrite <- plus_INR. f_equal. lia. }
        rewrite E, Rmult_plus_distr_r.
        match type of A with ?a = _ => match type of B with ?b = _ =>
          transitivity (INR (S k) * a + INR (S (n - S k)) * b)%R; [ring|rewrite A, B; ring] end end.
Qed.

(** alternating sum; [altsum p r N] = sum_{k=0}^{p} (-1)^k C(p,k) C(N-k,r) *)
Fixpoint zsum (f : nat -> Z) (n : nat) : Z := match n with O => 0 | S n' => zsum f n' + f n' end.
Lemma zsum_ext f g n : (forall k, (k < n)%nat -> f k = g k) -> zsum f n = zsum g n.
Proof. induction n as [|n IH]; cbn; intros H; auto. rewrite IH, H by auto with arith. auto. Qed.
Lemma zsum_sub f g n : zsum (fun k => f k - g k) n = zsum f n - zsum g n.
Proof. induction n as [|n IH]; cbn; auto. rewrite IH; ring. Qed.
Lemma zsum_first f n : zsum f (S n) = f O + zsum (fun k => f (S k)) n.
Proof. induction n as [|n IH]; cbn in *; [ring|]. rewrite IH. ring. Qed.
Definition altsum (p r N : nat) : Z :=
  zsum (fun k => (-1) ^ Z.of_nat k * bin p k * bin (N - k) r) (S p).
Lemma pow_m1_S k : (-1) ^ Z.of_nat (S k) = - (-1) ^ Z.of_nat k.
Proof. rewrite Nat2Z.inj_succ, Z.pow_succ_r by lia. ring. Qed.
Lemma altsum_step p r N : (p < N)%nat -> altsum (S p) r N = altsum p r N - altsum p r (N - 1).
Proof.
  intros HN. unfold altsum. rewrite zsum_first.
  rewrite (zsum_ext _ (fun k => (-1) ^ Z.of_nat (S k) * bin p (S k) * bin (N - S k) r
      - (-1) ^ Z.of_nat k * bin p k * bin (N - 1 - k) r)).
  - rewrite zsum_sub. rewrite (zsum_first (fun k => (-1) ^ Z.of_nat k * bin p k * bin (N - k) r) p).
    change (zsum (fun k => (-1) ^ Z.of_nat (S k) * bin p (S k) * bin (N - S k) r) (S p)) with
      (zsum (fun k => (-1) ^ Z.of_nat (S k) * bin p (S k) * bin (N - S k) r) p
        + (-1) ^ Z.of_nat (S p) * bin p (S p) * bin (N - S p) r).
    rewrite (bin_small p (S p)) by lia. rewrite !bin_0. ring.
  - intros k Hk. cbn [bin]. rewrite pow_m1_S. replace (N - 1 - k)%nat with (N - S k)%nat by lia. ring.
Qed.
Lemma altsum_val p : forall r N, (p <= r)%nat -> (p <= N)%nat -> altsum p r N = bin (N - p) (r - p).
Proof.
  induction p as [|p IH]; intros r N Hr HN.
  - unfold altsum. cbn [zsum]. rewrite bin_0, !Nat.sub_0_r.
    change ((-1) ^ Z.of_nat 0) with 1. ring.
  - rewrite altsum_step by lia. rewrite !IH by lia.
    replace (N - p)%nat with (S (N - S p)) by lia. replace (r - p)%nat with (S (r - S p)) by lia.
    replace (N - 1 - p)%nat with (N - S p)%nat by lia. cbn [bin]. ring.
Qed.
Lemma zsum_rsum f n : IZR (zsum f n) = rsum (fun k => IZR (f (Z.to_nat k))) (Z.of_nat n).
Proof.
  induction n as [|n IH]; [reflexivity|]. cbn [zsum]. rewrite plus_IZR, IH.
  replace (Z.of_nat (S n)) with (Z.of_nat n + 1) by lia. rewrite rsum_succ by lia.
  rewrite Nat2Z.id. reflexivity.
Qed.
Lemma pow_m1_IZR k : IZR ((-1) ^ Z.of_nat k) = ((-1) ^ k)%R.
Proof. rewrite <- pow_IZR. reflexivity. Qed.

Lemma radial_coef_bin n m k : 0 <= m <= n -> Z.Even (n - m) -> 0 <= k <= (n - m) / 2 ->
  radial_coef n m k =
  IZR ((-1) ^ Z.of_nat (Z.to_nat k) * bin (Z.to_nat ((n - m) / 2)) (Z.to_nat k)
       * bin (Z.to_nat n - Z.to_nat k) (Z.to_nat ((n - m) / 2))).
Proof.
  intros Hm [h Hh] Hk. unfold radial_coef, zfact.
  set (q := (n - m) / 2) in *. assert (q = h) by (unfold q; lia).
  replace ((n + m) / 2 - k) with (n - q - k) by lia.
  rewrite !mult_IZR, pow_m1_IZR.
  pose proof (bin_fact (Z.to_nat q) (Z.to_nat k) ltac:(lia)) as A.
  pose proof (bin_fact (Z.to_nat n - Z.to_nat k) (Z.to_nat q) ltac:(lia)) as B.
  replace (Z.to_nat (n - k)) with (Z.to_nat n - Z.to_nat k)%nat by lia.
  replace (Z.to_nat (n - q - k)) with (Z.to_nat n - Z.to_nat k - Z.to_nat q)%nat by lia.
  replace (Z.to_nat (q - k)) with (Z.to_nat q - Z.to_nat k)%nat by lia.
  pose proof (INR_fact_neq_0 (Z.to_nat k)). pose proof (INR_fact_neq_0 (Z.to_nat q)).
  pose proof (INR_fact_neq_0 (Z.to_nat q - Z.to_nat k)).
  pose proof (INR_fact_neq_0 (Z.to_nat n - Z.to_nat k - Z.to_nat q)).
  rewrite <- B, <- A. field. auto.
Qed.

Lemma radial_one n m : 0 <= m <= n -> Z.Even (n - m) -> radial n m 1 = 1%R.
Proof.
  intros Hm He. unfold radial. set (q := (n - m) / 2).
  rewrite (rsum_ext _ (fun k => IZR ((-1) ^ Z.of_nat (Z.to_nat k) * bin (Z.to_nat q) (Z.to_nat k)
       * bin (Z.to_nat n - Z.to_nat k) (Z.to_nat q)))).
  - pose proof (zsum_rsum (fun k => (-1) ^ Z.of_nat k * bin (Z.to_nat q) k
       * bin (Z.to_nat n - k) (Z.to_nat q)) (S (Z.to_nat q))) as K.
    replace (Z.of_nat (S (Z.to_nat q))) with (q + 1) in K by lia. rewrite <- K.
    change (zsum _ _) with (altsum (Z.to_nat q) (Z.to_nat q) (Z.to_nat n)).
    rewrite altsum_val by lia. rewrite Nat.sub_diag, bin_0. reflexivity.
  - intros k Hk. rewrite pow1, Rmult_1_r. apply radial_coef_bin; auto. lia.
Qed.

(** ** xyzern *)
Lemma zmax_list_ge l x : In x l -> x <= zmax_list l.
Proof. induction l as [|y l IH]; cbn; [tauto|]. intros [->|H]; [lia|]. apply IH in H. unfold zmax_list in H. lia. Qed.

Lemma xyzern_ok x y prad orders : nr x = nr y -> nc x = nc y -> (0 < prad)%R ->
  orders <> [] -> (forall j, In j orders -> 1 <= j) ->
  exists cube, xyzern x y prad orders = Ok cube /\ List.length cube = List.length orders /\
  forall k j a, nth_error orders k = Some j -> nth_error cube k = Some a ->
    nr a = nr x /\ nc a = nc x /\
    forall r c n m rho th, in_arr x r c -> noll_index j n m ->
      polar_of (at2 x r c) (at2 y r c) rho th ->
      at2 a r c = noll_zernike j n m (rho / prad) th.
Proof.
  intros H1 H2 Hp Hne Hpos. unfold xyzern.
  destruct (Rlt_dec 0 prad); [|contradiction]. cbn [guard bind].
  unfold same_shape. rewrite H1, H2, !Z.eqb_refl. cbn [andb guard bind].
  assert (Ef : forallb (fun o => 0 <? o) orders = true).
  { apply forallb_forall. intros j Hj. apply Hpos in Hj. lia. }
  rewrite Ef. cbn [guard bind].
  destruct (Z.eqb_spec (Z.of_nat (List.length orders)) 0).
  { destruct orders; [congruence|cbn in *; lia]. }
  cbn [negb guard bind]. eexists. split; [reflexivity|]. rewrite map_length. split; [reflexivity|].
  intros k j a Hj Ha. rewrite nth_error_map, Hj in Ha. cbn in Ha. injection Ha as <-.
  cbn [nr nc amap2 at2]. split; [auto|]. split; [auto|].
  intros r' c n' m rho th Hin Hi Hpol.
  pose proof (nth_error_In _ _ Hj) as HIn. pose proof (Hpos j HIn) as Hj1.
  destruct (proj2 (noll_decode_iff j n' m Hj1) Hi) as [En Em].
  apply zern_value_ok; auto.
  - rewrite <- En. apply zmax_list_ge, in_map; auto.
  - rewrite <- Em. apply zmax_list_ge, in_map; auto.
Qed.
Lemma xyzern_errors x y prad orders e : xyzern x y prad orders = Err e ->
  (e = TypeError /\ ((prad <= 0)%R \/ nr x <> nr y \/ nc x <> nc y \/ exists j, In j orders /\ j <= 0))
  \/ (e = ValueError /\ orders = []).
Proof.
  unfold xyzern, guard. destruct (Rlt_dec 0 prad); cbn [bind].
  2:{ intros H; injection H as <-. left. split; auto. left; lra. }
  destruct (same_shape x y) eqn:Es; cbn [bind].
  2:{ intros H; injection H as <-. left. split; auto. right. unfold same_shape in Es. lia. }
  destruct (forallb _ _) eqn:Ef; cbn [bind].
  2:{ intros H; injection H as <-. left. split; auto. right; right; right.
      assert (G : ~ (forall j, In j orders -> 0 < j)).
      { intros G. assert (forallb (fun o => 0 <? o) orders = true); [|congruence].
        apply forallb_forall. intros j Hj. apply G in Hj. lia. }
      clear Ef Es. induction orders as [|o l IH]; [exfalso; apply G; cbn; tauto|].
      destruct (Z.le_gt_cases o 0); [exists o; cbn; auto|].
      destruct IH as (j & Hj & Hl); [|exists j; cbn; auto].
      intros K. apply G. intros j [<-|Hj]; auto. }
  destruct (Z.eqb_spec (Z.of_nat (List.length orders)) 0); cbn [negb bind]; [|discriminate].
  intros H; injection H as <-. right. split; auto. destruct orders; auto. cbn in *; lia.
Qed.

(** ** gen_zernikes *)
Lemma weighted_sum_fold n l : forall acc, nr acc = n -> nc acc = n ->
  let s := fold_left (fun acc cz => Arr n n (fun i j => at2 acc i j + fst cz * at2 (snd cz) i j)%R) l acc in
  nr s = n /\ nc s = n /\
  forall i j, at2 s i j = (at2 acc i j + lsum (fun cz : R * arr R => fst cz * at2 (snd cz) i j) l)%R.
Proof.
  induction l as [|cz l IH]; intros acc Hr Hc; cbn [fold_left lsum].
  - repeat split; auto. intros; ring.
  - destruct (IH (Arr n n (fun i j => at2 acc i j + fst cz * at2 (snd cz) i j)%R) eq_refl eq_refl)
      as (A & B & C).
    repeat split; auto. intros. rewrite C. cbn [at2]. ring.
Qed.

(** value of Noll mode j at a Cartesian point, through the polar form *)
Definition zern_xy (j : Z) (prad x y : R) : R :=
  noll_zernike j (noll_n j) (noll_m j) (sqrt (x ^ 2 + y ^ 2) / prad) (arctan2 y x).

Lemma combine_map_r {A B C} (f : B -> C) (l : list A) (l' : list B) :
  combine l (map f l') = map (fun p => (fst p, f (snd p))) (combine l l').
Proof. revert l'; induction l as [|a l IH]; destruct l' as [|b l']; cbn; auto. rewrite IH; auto. Qed.

Definition eff_size (nArray : Z) (nBeam xo yo : R) :=
  if nArray =? 1000000 then auto_size nBeam xo yo else nArray.
Lemma gen_zernikes_ok inds coefs xo yo nBeam nArray :
  List.length inds = List.length coefs -> inds <> [] -> (forall j, In j inds -> 1 <= j) ->
  (0 < nBeam)%R -> 0 < nArray ->
  exists out, gen_zernikes inds coefs xo yo nBeam nArray = Ok out /\
    nr out = eff_size nArray nBeam xo yo /\ nc out = eff_size nArray nBeam xo yo /\
    forall r c, in_arr out r c ->
      at2 out r c = lsum (fun cj => fst cj * zern_xy (snd cj) (nBeam / 2)
          (IZR c - IZR (eff_size nArray nBeam xo yo / 2) - xo)
          (IZR r - IZR (eff_size nArray nBeam xo yo / 2) - yo))%R (combine coefs inds).
Proof.
  intros HL Hne Hpos HB HA. unfold gen_zernikes. rewrite HL, Z.eqb_refl. cbn [guard bind].
  destruct (Rlt_dec 0 nBeam); [|contradiction]. cbn [guard bind].
  destruct (Z.ltb_spec 0 nArray); [|lia]. cbn [guard bind]. fold (eff_size nArray nBeam xo yo).
  set (N := eff_size nArray nBeam xo yo).
  destruct (xyzern_ok (grid_x N xo) (grid_y N yo) (nBeam / 2) inds) as (cube & Ec & Hlen & Hval);
    auto; [lra|].
  rewrite Ec. cbn [bind]. eexists; split; [reflexivity|].
  destruct (weighted_sum_fold N (combine coefs cube) (afull N N 0%R) eq_refl eq_refl) as (A & B & C).
  unfold weighted_sum. rewrite A, B. repeat split; auto. intros r' c Hin.
  assert (Hin' : in_arr (grid_x N xo) r' c).
  { unfold in_arr in *. rewrite A, B in Hin. exact Hin. }
  rewrite C. cbn [at2 afull]. rewrite Rplus_0_l. clear C A B Ec Hin Hne.
  revert inds cube HL Hlen Hval Hpos. induction coefs as [|co coefs IH]; intros [|j inds] [|a cube];
    cbn [List.length combine lsum]; intros HL Hlen Hval Hpos; try discriminate; auto.
  rewrite (IH inds cube); auto.
  - f_equal. cbn [fst snd]. f_equal.
    destruct (Hval 0%nat j a eq_refl eq_refl) as (_ & _ & V).
    unfold zern_xy. apply V; auto.
    + apply noll_decode. apply Hpos. cbn; auto.
    + apply polar_ok.
  - intros k j' a' Hj' Ha'. apply (Hval (S k)); auto.
  - intros; apply Hpos; cbn; auto.
Qed.

(** value of a pixel through any polar coordinates *)
Lemma zern_xy_spec j n m prad x y rho th : noll_index j n m -> (0 < prad)%R -> polar_of x y rho th ->
  zern_xy j prad x y = noll_zernike j n m (rho / prad) th.
Proof.
  intros Hi Hp Hpol. assert (Hj : 1 <= j) by (eapply noll_index_pos; eauto).
  destruct (proj2 (noll_decode_iff j n m Hj) Hi) as [En Em]. unfold zern_xy. rewrite En, Em.
  rewrite <- (zern_value_ok n m prad j n m x y (sqrt (x ^ 2 + y ^ 2)) (arctan2 y x)); auto; try lia.
  - apply zern_value_ok; auto; lia.
  - apply polar_ok.
Qed.

Lemma auto_size_contains nBeam : (0 < nBeam)%R ->
  let N := auto_size nBeam 0 0 in Z.Even N /\
  (IZR (0 - N / 2) - / 2 <= - (nBeam / 2))%R /\ (nBeam / 2 <= IZR (N - 1 - N / 2) + / 2)%R /\
  (IZR N < nBeam + 3)%R.
Proof.
  intros H. cbv zeta. unfold auto_size. rewrite Rabs_R0, Rmax_left by lra.
  pose proof (Zceil_bounds (/ 2 * (nBeam + 1 + 0))) as [A B].
  set (z := Zceil (/ 2 * (nBeam + 1 + 0))) in *. split; [eexists; reflexivity|].
  replace (2 * z / 2) with z by lia. rewrite ?minus_IZR, ?mult_IZR. lra.
Qed.

Lemma mode_fun_ex prad : (0 < prad)%R -> is_mode_fun prad (fun j => zern_xy j prad).
Proof. intros H j n m x y rho th Hi Hp. apply zern_xy_spec; auto. Qed.
Lemma mode_fun_unique prad Zf j x y : (0 < prad)%R -> is_mode_fun prad Zf -> 1 <= j ->
  Zf j x y = zern_xy j prad x y.
Proof.
  intros H HZ Hj. unfold zern_xy. apply HZ; [apply noll_decode; auto|apply polar_ok].
Qed.

Lemma in_combine_snd {A B} (l : list A) (l' : list B) p : In p (combine l l') -> In (snd p) l'.
Proof. destruct p. apply in_combine_r. Qed.

Lemma gen_zernikes_modes inds coefs xo yo nBeam nArray Zf :
  is_mode_fun (nBeam / 2) Zf ->
  List.length inds = List.length coefs -> inds <> [] -> (forall j, In j inds -> 1 <= j) ->
  (0 < nBeam)%R -> 0 < nArray -> nArray <> 1000000 ->
  exists out, gen_zernikes inds coefs xo yo nBeam nArray = Ok out /\ nr out = nArray /\ nc out = nArray /\
    forall r c, 0 <= r < nArray -> 0 <= c < nArray ->
      at2 out r c = fold_right Rplus 0%R (map (fun cj => fst cj * Zf (snd cj)
          (IZR (c - nArray / 2) - xo) (IZR (r - nArray / 2) - yo))%R (combine coefs inds)).
Proof.
  intros HZ HL Hne Hpos HB HA Hs.
  destruct (gen_zernikes_ok inds coefs xo yo nBeam nArray) as (out & E & R1 & R2 & V); auto.
  unfold eff_size in *. destruct (Z.eqb_spec nArray 1000000); [contradiction|].
  exists out. repeat split; auto. intros r c Hr Hc. rewrite V by (unfold in_arr; lia).
  assert (G : forall f (l : list (R * Z)), lsum f l = fold_right Rplus 0%R (map f l)).
  { intros f l; induction l as [|q l IH]; cbn; auto. rewrite IH; auto. }
  rewrite <- G. apply lsum_ext. intros p Hp.
  rewrite !minus_IZR. rewrite (mode_fun_unique (nBeam / 2) Zf); auto; [lra|].
  apply Hpos. eapply in_combine_snd; eauto.
Qed.

Lemma gen_zernikes_perm inds coefs inds' coefs' xo yo nBeam nArray out out' :
  List.length inds = List.length coefs -> List.length inds' = List.length coefs' ->
  Permutation (combine coefs inds) (combine coefs' inds') ->
  gen_zernikes inds coefs xo yo nBeam nArray = Ok out ->
  gen_zernikes inds' coefs' xo yo nBeam nArray = Ok out' -> aeq out out'.
Proof.
  intros L L' P E E'.
  assert (G : forall inds coefs out, gen_zernikes inds coefs xo yo nBeam nArray = Ok out ->
    List.length inds = List.length coefs ->
    inds <> [] /\ (forall j, In j inds -> 1 <= j) /\ (0 < nBeam)%R /\ 0 < nArray).
  { clear. intros inds coefs out E L. unfold gen_zernikes, xyzern, guard in E.
    rewrite L, Z.eqb_refl in E. cbn [bind] in E.
    destruct (Rlt_dec 0 nBeam) as [HB|]; [|discriminate]. cbn [bind] in E.
    destruct (Z.ltb_spec 0 nArray); [|discriminate]. cbn [bind] in E.
    destruct (Rlt_dec 0 (nBeam / 2)); [|discriminate]. cbn [bind] in E.
    destruct (same_shape _ _); [|discriminate]. cbn [bind] in E.
    destruct (forallb (fun o => 0 <? o) inds) eqn:Ef; [|discriminate]. cbn [bind] in E.
    destruct (Z.eqb_spec (Z.of_nat (List.length coefs)) 0); cbn [negb bind] in E; [discriminate|].
    repeat split; auto.
    - intros ->. cbn in *; lia.
    - intros j Hj. rewrite forallb_forall in Ef. apply Ef in Hj. lia. }
  destruct (G _ _ _ E L) as (A1 & A2 & A3 & A4). destruct (G _ _ _ E' L') as (B1 & B2 & _ & _).
  destruct (gen_zernikes_ok inds coefs xo yo nBeam nArray) as (o & Eo & R1 & R2 & V); auto.
  destruct (gen_zernikes_ok inds' coefs' xo yo nBeam nArray) as (o' & Eo' & R1' & R2' & V'); auto.
  rewrite E in Eo. injection Eo as ->. rewrite E' in Eo'. injection Eo' as ->.
  split; [congruence|]. split; [congruence|]. intros i j Hij.
  rewrite V, V' by (unfold in_arr in *; lia). apply lsum_perm; auto.
Qed.

Lemma combine_lin (f : Z -> R) a b : forall c1 c2 (l : list Z),
  List.length c1 = List.length l -> List.length c2 = List.length l ->
  lsum (fun cj => fst cj * f (snd cj))%R (combine (map (fun p => a * fst p + b * snd p)%R (combine c1 c2)) l) =
  (a * lsum (fun cj => fst cj * f (snd cj)) (combine c1 l)
   + b * lsum (fun cj => fst cj * f (snd cj)) (combine c2 l))%R.
Proof.
  induction c1 as [|x c1 IH]; intros [|y c2] [|z l]; cbn [combine map lsum List.length]; intros; try discriminate;
    [ring|]. rewrite IH by lia. cbn [fst snd]. ring.
Qed.
Lemma gen_zernikes_linear inds c1 c2 a b xo yo nBeam nArray o1 o2 o :
  List.length c1 = List.length inds -> List.length c2 = List.length inds ->
  inds <> [] -> (forall j, In j inds -> 1 <= j) -> (0 < nBeam)%R -> 0 < nArray ->
  gen_zernikes inds c1 xo yo nBeam nArray = Ok o1 ->
  gen_zernikes inds c2 xo yo nBeam nArray = Ok o2 ->
  gen_zernikes inds (map (fun p => a * fst p + b * snd p)%R (combine c1 c2)) xo yo nBeam nArray = Ok o ->
  aeq o (amap2 (fun u v => a * u + b * v)%R o1 o2).
Proof.
  intros L1 L2 Hne Hpos HB HA E1 E2 E.
  destruct (gen_zernikes_ok inds c1 xo yo nBeam nArray) as (o' & Eo & R1 & R2 & V1); auto.
  rewrite E1 in Eo; injection Eo as <-.
  destruct (gen_zernikes_ok inds c2 xo yo nBeam nArray) as (o' & Eo & R3 & R4 & V2); auto.
  rewrite E2 in Eo; injection Eo as <-.
  destruct (gen_zernikes_ok inds (map (fun p => a * fst p + b * snd p)%R (combine c1 c2)) xo yo nBeam nArray)
    as (o' & Eo & R5 & R6 & V); auto.
  { rewrite map_length, combine_length. lia. }
  rewrite E in Eo; injection Eo as <-.
  split; [cbn; congruence|]. split; [cbn; congruence|]. cbn [amap2 at2].
  intros i j Hij. rewrite V, V1, V2 by (unfold in_arr in *; lia).
  exact (combine_lin (fun k => zern_xy k (nBeam / 2) (IZR j - IZR (eff_size nArray nBeam xo yo / 2) - xo)
          (IZR i - IZR (eff_size nArray nBeam xo yo / 2) - yo)) a b c1 c2 inds L1 L2).
Qed.

Lemma auto_size_refuted : exists nBeam xo yo : R, (0 < nBeam)%R /\
  (IZR (auto_size nBeam xo yo - 1 - auto_size nBeam xo yo / 2) + / 2 < xo + nBeam / 2)%R.
Proof.
  exists 10%R, 10%R, 0%R. split; [lra|].
  replace (auto_size 10 10 0) with 22.
  - cbn. lra.
  - unfold auto_size. rewrite (Rabs_right 10), Rabs_R0, Rmax_left by lra.
    rewrite (Zceil_unique _ 11) by lra. reflexivity.
Qed.

(** ** fit_zernikes *)
Lemma in_nonzero_points m p : In p (nonzero_points m) <->
  0 <= fst p < nr m /\ 0 <= snd p < nc m /\ at2 m (fst p) (snd p) <> 0%R.
Proof.
  unfold nonzero_points. rewrite filter_In, in_indices.
  destruct (Req_EM_T (at2 m (fst p) (snd p)) 0); split; try tauto; intros; intuition; discriminate.
Qed.
Lemma fit_matrix_mode ny nx maxNoll nBeam dx dy p k Zf : is_mode_fun (nBeam / 2) Zf -> (0 < nBeam)%R ->
  0 <= k < maxNoll ->
  fit_matrix ny nx maxNoll nBeam dx dy p k =
  Zf (k + 1) (IZR (snd p - nx / 2) - dx)%R (IZR (fst p - ny / 2) - dy)%R.
Proof.
  intros HZ HB Hk. unfold fit_matrix. rewrite (mode_fun_unique (nBeam / 2) Zf) by (auto; try lra; lia).
  unfold zern_xy. rewrite !minus_IZR.
  replace (IZR (snd p) - IZR (nx / 2) - dx)%R with (IZR (snd p) - (IZR (nx / 2) + dx))%R by ring.
  replace (IZR (fst p) - IZR (ny / 2) - dy)%R with (IZR (fst p) - (IZR (ny / 2) + dy))%R by ring.
  assert (Hin : In (k + 1) (map (fun k => k + 1) (zrange maxNoll))).
  { apply (in_map (fun k => k + 1)). apply in_zrange. lia. }
  apply zern_value_ok; try lra.
  - apply noll_decode. lia.
  - apply zmax_list_ge. apply in_map. exact Hin.
  - apply zmax_list_ge. apply in_map. exact Hin.
  - apply polar_ok.
Qed.

Lemma gen_zernikes_app i1 c1 i2 c2 xo yo nBeam nArray o1 o2 o :
  List.length i1 = List.length c1 -> List.length i2 = List.length c2 ->
  i1 <> [] -> i2 <> [] -> (forall j, In j (i1 ++ i2) -> 1 <= j) -> (0 < nBeam)%R -> 0 < nArray ->
  gen_zernikes i1 c1 xo yo nBeam nArray = Ok o1 ->
  gen_zernikes i2 c2 xo yo nBeam nArray = Ok o2 ->
  gen_zernikes (i1 ++ i2) (c1 ++ c2) xo yo nBeam nArray = Ok o ->
  aeq o (amap2 Rplus o1 o2).
Proof.
  intros L1 L2 N1 N2 Hpos HB HA E1 E2 E.
  destruct (gen_zernikes_ok i1 c1 xo yo nBeam nArray) as (o' & Eo & R1 & R2 & V1); auto.
  { intros; apply Hpos, in_or_app; auto. }
  rewrite E1 in Eo; injection Eo as <-.
  destruct (gen_zernikes_ok i2 c2 xo yo nBeam nArray) as (o' & Eo & R3 & R4 & V2); auto.
  { intros; apply Hpos, in_or_app; auto. }
  rewrite E2 in Eo; injection Eo as <-.
  destruct (gen_zernikes_ok (i1 ++ i2) (c1 ++ c2) xo yo nBeam nArray) as (o' & Eo & R5 & R6 & V); auto.
  { rewrite !app_length. lia. }
  { destruct i1; cbn; congruence. }
  rewrite E in Eo; injection Eo as <-.
  split; [cbn; congruence|]. split; [cbn; congruence|]. cbn [amap2 at2].
  intros i j Hij. rewrite V, V1, V2 by (unfold in_arr in *; lia).
  assert (C : combine (c1 ++ c2) (i1 ++ i2) = combine c1 i1 ++ combine c2 i2).
  { clear -L1. revert i1 L1. induction c1 as [|x c1 IH]; destruct i1 as [|y i1]; cbn; intros; try discriminate; auto.
    rewrite IH by lia. reflexivity. }
  rewrite C, lsum_app. reflexivity.
Qed.

Lemma gen_zernikes_total inds coefs xo yo nBeam nArray :
  (exists out, gen_zernikes inds coefs xo yo nBeam nArray = Ok out) <->
  (List.length inds = List.length coefs /\ inds <> [] /\ (forall j, In j inds -> 1 <= j) /\
   (0 < nBeam)%R /\ 0 < nArray).
Proof.
  split.
  - intros (out & E). unfold gen_zernikes, xyzern, guard in E.
    destruct (Z.eqb_spec (Z.of_nat (List.length inds)) (Z.of_nat (List.length coefs))) as [EL|]; [|discriminate].
    cbn [bind] in E.
    destruct (Rlt_dec 0 nBeam) as [HB|]; [|discriminate]. cbn [bind] in E.
    destruct (Z.ltb_spec 0 nArray); [|discriminate]. cbn [bind] in E.
    destruct (Rlt_dec 0 (nBeam / 2)); [|discriminate]. cbn [bind] in E.
    destruct (same_shape _ _); [|discriminate]. cbn [bind] in E.
    destruct (forallb (fun o => 0 <? o) inds) eqn:Ef; [|discriminate]. cbn [bind] in E.
    destruct (Z.eqb_spec (Z.of_nat (List.length inds)) 0); cbn [negb bind] in E; [discriminate|].
    repeat split; auto; try lia.
    + intros ->. cbn in *; lia.
    + intros j Hj. rewrite forallb_forall in Ef. apply Ef in Hj. lia.
  - intros (A & B & C & D & F). destruct (gen_zernikes_ok inds coefs xo yo nBeam nArray) as (o & Eo & _); eauto.
Qed.

Section Fit.
Variable lstsq : lstsq_fun.
Hypothesis lstsq_ok : is_lstsq_oracle lstsq.
Variables (wfe usable : arr R) (maxNoll : Z) (nBeam dx dy : R).
Hypothesis Hs1 : nr wfe = nr usable.
Hypothesis Hs2 : nc wfe = nc usable.
Hypothesis Hmax : 1 <= maxNoll.
Hypothesis HB : (0 < nBeam)%R.
Variable Zf : Z -> R -> R -> R.
Hypothesis HZ : is_mode_fun (nBeam / 2) Zf.
Local Notation cmb := (mode_comb maxNoll Zf dx dy wfe).
Local Notation mode_k := (mode_at Zf dx dy wfe).
Lemma fit_ok_eq : fit_zernikes lstsq wfe usable maxNoll nBeam dx dy =
  Ok (lstsq (nonzero_points usable) maxNoll (fit_matrix (nr wfe) (nc wfe) maxNoll nBeam dx dy)
            (fun p => at2 wfe (fst p) (snd p))).
Proof.
  unfold fit_zernikes, guard, same_shape. rewrite Hs1, Hs2, !Z.eqb_refl. cbn [andb bind].
  destruct (Z.ltb_spec 0 maxNoll); [|lia]. cbn [bind].
  destruct (Rlt_dec 0 nBeam); [|contradiction]. reflexivity.
Qed.
Lemma fitted_comb a p : fitted maxNoll (fit_matrix (nr wfe) (nc wfe) maxNoll nBeam dx dy) a p
  = cmb a (fst p) (snd p).
Proof.
  unfold fitted, mode_comb. apply rsum_ext. intros k Hk. f_equal.
  rewrite (fit_matrix_mode _ _ _ _ _ _ _ _ Zf) by auto. reflexivity.
Qed.
Lemma used_pts r c : used usable r c <-> In (r, c) (nonzero_points usable).
Proof. unfold used, in_arr. rewrite in_nonzero_points. cbn. tauto. Qed.
Lemma fit_recovers a : modes_independent maxNoll Zf dx dy wfe usable -> (forall r c, used usable r c -> at2 wfe r c = cmb a r c) ->
  exists v, fit_zernikes lstsq wfe usable maxNoll nBeam dx dy = Ok v /\
  forall k, 0 <= k < maxNoll -> v k = a k.
Proof.
  intros I E. eexists; split; [apply fit_ok_eq|].
  eapply lstsq_recover; [|apply lstsq_ok|].
  - intros c Hc. apply I. intros r c' Hu. pose proof (fitted_comb c (r, c')) as K.
    cbn [fst snd] in K. rewrite <- K. apply Hc, used_pts; auto.
  - intros [r c] Hp. cbn [fst snd]. rewrite fitted_comb. apply E, used_pts; auto.
Qed.
Lemma filter_indices_sum (m : arr R) (f : Z -> Z -> R) :
  lsum (fun p => f (fst p) (snd p)) (nonzero_points m) =
  rsum2 (fun r c => if Req_EM_T (at2 m r c) 0 then 0 else f r c)%R (nr m) (nc m).
Proof.
  unfold nonzero_points, indices, rsum2, rsum, gsum, zrange.
  generalize (Z.to_nat (nr m)). generalize (Z.to_nat (nc m)). intros C Rn.
  assert (G : forall r, lsum (fun p => f (fst p) (snd p))
    (filter (fun p => if Req_EM_T (at2 m (fst p) (snd p)) 0 then false else true)
       (map (fun c => (r, c)) (map Z.of_nat (seq 0 C)))) =
    gnsum R 0%R Rplus (fun c => if Req_EM_T (at2 m r c) 0 then 0 else f r c)%R C).
  { intros r. induction C as [|C IH]; [reflexivity|].
    rewrite seq_S, !map_app, filter_app, lsum_app. cbn [gnsum]. rewrite <- IH. f_equal.
    cbn. destruct (Req_EM_T _ _); cbn; ring. }
  induction Rn as [|Rn IH]; [reflexivity|].
  rewrite seq_S, map_app. cbn [gnsum].
  assert (LP : forall (l1 l2 l : list Z), list_prod (l1 ++ l2) l = list_prod l1 l ++ list_prod l2 l).
  { clear. induction l1 as [|x l1 IH]; intros; cbn; auto. rewrite IH, app_assoc. reflexivity. }
  rewrite LP, filter_app, lsum_app, IH. f_equal. cbn [list_prod map Nat.add]. rewrite app_nil_r. apply G.
Qed.
Lemma fit_orthogonal : exists v, fit_zernikes lstsq wfe usable maxNoll nBeam dx dy = Ok v /\
  (forall k, 0 <= k < maxNoll ->
    usable_sum usable (fun r c => mode_k (k + 1) r c * (at2 wfe r c - cmb v r c))%R = 0%R) /\
  (forall a, (usable_sum usable (fun r c => (at2 wfe r c - cmb v r c) ^ 2)
              <= usable_sum usable (fun r c => (at2 wfe r c - cmb a r c) ^ 2))%R).
Proof.
  eexists; split; [apply fit_ok_eq|]. set (v := lstsq _ _ _ _).
  pose proof (lstsq_ok (nonzero_points usable) maxNoll (fit_matrix (nr wfe) (nc wfe) maxNoll nBeam dx dy)
            (fun p => at2 wfe (fst p) (snd p))) as L. fold v in L. split.
  - intros k Hk. apply lstsq_normal in L. specialize (L k Hk). unfold usable_sum.
    rewrite <- filter_indices_sum. rewrite <- (Rmult_0_r (-1)). rewrite <- L at 1.
    rewrite <- lsum_scal. apply lsum_ext. intros p Hp. cbv beta. rewrite fitted_comb.
    rewrite (fit_matrix_mode _ _ _ _ _ _ _ _ Zf) by auto. unfold mode_at. ring.
  - intros a. specialize (L a). unfold sse in L. unfold usable_sum. rewrite <- !filter_indices_sum.
    rewrite (lsum_ext _ (fun p => (fitted maxNoll (fit_matrix (nr wfe) (nc wfe) maxNoll nBeam dx dy) v p
      - at2 wfe (fst p) (snd p)) ^ 2)%R) by (intros; rewrite fitted_comb; ring).
    eapply Rle_trans; [exact L|]. apply Req_le, lsum_ext. intros. rewrite fitted_comb. ring.
Qed.
End Fit.
Lemma fit_errors lstsq wfe usable maxNoll nBeam dx dy e :
  fit_zernikes lstsq wfe usable maxNoll nBeam dx dy = Err e ->
  (e = ValueError /\ (nr wfe <> nr usable \/ nc wfe <> nc usable \/ maxNoll <= 0)) \/
  (e = TypeError /\ (nBeam <= 0)%R).
Proof.
  unfold fit_zernikes, guard. destruct (same_shape wfe usable) eqn:Es; cbn [bind].
  2:{ intros H; injection H as <-. left. unfold same_shape in Es. split; auto. lia. }
  destruct (Z.ltb_spec 0 maxNoll); cbn [bind].
  2:{ intros H'; injection H' as <-. left. split; auto. }
  destruct (Rlt_dec 0 nBeam); cbn [bind]; [discriminate|].
  intros H'; injection H' as <-. right. split; auto. lra.
Qed.
(** One usable pixel and one mode: independent. *)
Lemma fit_example_indep : 
  modes_independent 1 (fun j => zern_xy j (2 / 2)) 0%R 0%R (afull 1 1 0%R) (afull 1 1 1%R).
Proof.
  intros a H k Hk. replace k with 0 by lia.
  assert (U : used (afull 1 1 1%R) 0 0) by (split; [unfold in_arr; cbn; lia|cbn; lra]).
  specialize (H 0 0 U). unfold mode_comb in H. rewrite rsum_one in H. unfold mode_at in H.
  assert (E : zern_xy (0 + 1) (2 / 2) (IZR (0 - nc (afull 1 1 0%R) / 2) - 0)
                 (IZR (0 - nr (afull 1 1 0%R) / 2) - 0) = 1%R).
  { assert (I : noll_index 1 0 0).
    { split; [lia|]. split; [exists 0; lia|]. left. split; [lia|reflexivity]. }
    rewrite (zern_xy_spec 1 0 0 (2/2) _ _ _ _ I ltac:(lra) (polar_ok _ _)).
    unfold noll_zernike. cbn [Z.eqb]. rewrite Rplus_0_l, sqrt_1. unfold radial, radial_coef, zfact.
    change ((0 - 0) / 2 + 1) with 1. rewrite rsum_one. cbn. field. }
  cbv beta in H. rewrite E in H. lra.
Qed.

Lemma noll_bijection n m : 0 <= m <= n -> Z.Even (n - m) ->
  (m = 0 -> exists j, noll_index j n m /\ forall j', noll_index j' n m -> j' = j) /\
  (0 < m -> exists jc js, Z.Even jc /\ Z.Odd js /\ Z.abs (jc - js) = 1 /\
     noll_index jc n m /\ noll_index js n m /\
     forall j', noll_index j' n m -> j' = jc \/ j' = js).
Proof.
  intros Hm He. unfold noll_index. set (t := n * (n + 1) / 2). split.
  - intros E. exists (t + 1). split; [|intros; lia]. split; [auto|]. split; [auto|]. left; lia.
  - intros E. destruct (Z.Even_or_Odd (t + m)) as [K|K].
    + exists (t + m), (t + m + 1). split; [auto|]. split; [destruct K as [q K]; exists q; lia|].
      split; [lia|]. split; [|split]; [| |intros; lia]; (split; [auto|]; split; [auto|]; right; lia).
    + exists (t + m + 1), (t + m). split; [destruct K as [q K]; exists (q + 1); lia|].
      split; [auto|]. split; [lia|]. split; [|split]; [| |intros; lia]; (split; [auto|]; split; [auto|]; right; lia).
Qed.
Lemma noll_range j : 1 <= j ->
  let n := noll_n j in let m := noll_m j in
  0 <= m <= n /\ Z.Even (n - m) /\ n * (n + 1) / 2 < j <= (n + 1) * (n + 2) / 2.
Proof.
  intros H. cbv zeta. pose proof (noll_decode j H) as D. pose proof (noll_index_np1 _ _ _ D) as N.
  destruct D as (A & B & _). split; auto. split; auto. destruct N as (_ & N). unfold tri in N.
  replace (noll_n j + 1 - 1) with (noll_n j) in N by lia.
  replace (noll_n j + 1 + 1) with (noll_n j + 2) in N by lia. exact N.
Qed.
Lemma noll_binary64 j : 1 <= j <= 2 ^ 48 -> noll_np1_f j = Ok (noll_n j + 1).
Proof. intros H. rewrite noll_np1_f_ok by auto. unfold noll_n. f_equal. lia. Qed.
Lemma noll_examples :
  noll_n 11 = 4 /\ noll_m 11 = 0 /\ noll_n 8 = 3 /\ noll_m 8 = 1 /\ noll_np1_f 11 = Ok 5.
Proof.
  assert (A : noll_index 11 4 0).
  { split; [lia|]. split; [exists 2; lia|]. left. split; reflexivity. }
  assert (B : noll_index 8 3 1).
  { split; [lia|]. split; [exists 1; lia|]. right. split; [lia|]. right. reflexivity. }
  apply noll_decode_iff in A, B; try lia. destruct A, B. repeat split; auto.
Qed.
Lemma coef_ok n m k : 0 <= m <= n -> Z.Even (n - m) -> 0 <= k <= (n - m) / 2 ->
  let t := coef_tables n m in
  (rnum t k / (rden0 t k * rden1 t k * rden2 t k) = radial_coef n m k)%R.
Proof.
  intros A B C. cbv zeta. destruct (coef_tables_ok n m k A B C) as (D & E & F & G).
  rewrite D, E, F, G. reflexivity.
Qed.
Lemma radial_focus r : (radial 2 0 r = 2 * r ^ 2 - 1)%R.
Proof.
  unfold radial. change ((2 - 0) / 2 + 1) with (0 + 1 + 1). rewrite 2 rsum_succ by lia. rewrite rsum_0 by lia.
  unfold radial_coef, zfact. change ((2 + 0) / 2) with 1. change ((2 - 0) / 2) with 1.
  cbn -[pow INR IZR]. simpl INR. simpl pow. field.
Qed.
