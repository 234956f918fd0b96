(** Proofs about PSF registration (psffit). *)
From Coq Require Import ZArith Bool List String Reals Lra Lia Psatz.
From Flocq Require Import Core.
From Coquelicot Require Import Complex.
From Verif.Base Require Import Py Arr Vec Sums CSum Lstsq Fft.
From Verif.Model Require Import Math Fits Yaml PsfFit.
From Verif.Spec Require Import ConjugateSpec PsfFitSpec.
From Verif.Proofs Require Import FitsP DarkHoleP.
Import ListNotations.
Open Scope list_scope.
Open Scope Z_scope.

(** ** Row-major first maximum *)
Lemma arg_fold f l p : let b := fold_left (arg_step f) l p in
  In b (p :: l) /\ (forall q, In q (p :: l) -> (f q <= f b)%R).
Proof.
  revert p. induction l as [|q l IH]; intros p b; subst b; cbn [fold_left].
  - split; [left; auto|]. intros q [<-|[]]. lra.
  - destruct (IH (arg_step f p q)) as [I M].
    assert (A : arg_step f p q = if Rlt_dec (f p) (f q) then q else p) by reflexivity. rewrite A in I, M |- *. clear A. destruct (Rlt_dec (f p) (f q)) as [L|L].
    + split; [destruct I as [<-|I]; [right; left; auto|right; right; auto]|].
      intros r [<-|[<-|H]]; [apply Rle_trans with (f q); [lra|apply M; left; auto]|apply M; left; auto|apply M; right; auto].
    + split; [destruct I as [<-|I]; [left; auto|right; right; auto]|].
      intros r [<-|[<-|H]]; [apply M; left; auto|apply Rle_trans with (f p); [lra|apply M; left; auto]|apply M; right; auto].
Qed.
Lemma arg_fold_first f l p l1 l2 : let b := fold_left (arg_step f) l p in NoDup (p :: l) ->
  p :: l = l1 ++ b :: l2 -> forall q, In q l1 -> (f q < f b)%R.
Proof.
  revert p l1 l2. induction l as [|q l IH]; intros p l1 l2 b ND E; subst b; cbn [fold_left] in *.
  - destruct l1 as [|x l1]; [intros q []|]. destruct l1; discriminate.
  - assert (A : arg_step f p q = if Rlt_dec (f p) (f q) then q else p) by reflexivity. rewrite A in E |- *. clear A. inversion ND as [|? ? N1 N2]; subst.
    inversion N2 as [|? ? N3 N4]; subst. destruct (Rlt_dec (f p) (f q)) as [L|L].
    + set (b := fold_left (arg_step f) l q) in *. destruct (arg_fold f l q) as [Ib Mb]. fold b in Ib, Mb.
      destruct l1 as [|x l1].
      * exfalso. injection E as E _. apply N1. rewrite E. destruct Ib as [<-|Ib]; [left; auto|right; auto].
      * injection E as -> E. intros r [<-|Hr].
        -- apply Rlt_le_trans with (f q); auto. apply Mb. left; auto.
        -- apply (IH q l1 l2 N2 E r Hr).
    + set (b := fold_left (arg_step f) l p) in *. destruct (arg_fold f l p) as [Ib Mb]. fold b in Ib, Mb.
      assert (NDp : NoDup (p :: l)) by (constructor; [intros H; apply N1; right; auto|auto]).
      destruct l1 as [|x l1]; [intros r []|]. injection E as -> E.
      destruct l1 as [|y l1].
      * exfalso. injection E as E _. destruct Ib as [Ib|Ib].
        -- apply N1. left. congruence.
        -- apply N3. rewrite E. auto.
      * injection E as -> E. assert (P : (f x < f b)%R).
        { apply (IH x (x :: l1) l2 NDp); [cbn; f_equal; exact E|left; auto]. }
        intros r [<-|[<-|Hr]]; auto.
        -- lra.
        -- apply (IH x (x :: l1) l2 NDp); [cbn; f_equal; exact E|right; auto].
Qed.

Lemma zrange_S n : zrange (Z.of_nat (S n)) = zrange (Z.of_nat n) ++ [Z.of_nat n].
Proof. unfold zrange. rewrite !Nat2Z.id, seq_S, map_app. reflexivity. Qed.
Lemma zrange_NoDup n : NoDup (zrange n).
Proof. unfold zrange. apply FinFun.Injective_map_NoDup; [intros a b; lia|apply seq_NoDup]. Qed.
Lemma nodup_app {A} (l l' : list A) : NoDup l -> NoDup l' -> (forall x, In x l -> ~ In x l') -> NoDup (l ++ l').
Proof.
  induction l as [|x l IH]; cbn; intros H H' D; auto. inversion H; subst. constructor.
  - rewrite in_app_iff. intros [I|I]; [auto|]. apply (D x); [left; auto|auto].
  - apply IH; auto.
Qed.
Lemma prod_nodup {A B} (l : list A) (l' : list B) : NoDup l -> NoDup l' -> NoDup (list_prod l l').
Proof.
  intros H H'. induction l as [|x l IH]; cbn; [constructor|]. inversion H; subst. apply nodup_app.
  - apply FinFun.Injective_map_NoDup; [intros a b [= ->]; auto|auto].
  - auto.
  - intros [a b] I J. apply in_map_iff in I as (c & [= <- <-] & _). apply in_prod_iff in J as [J _]. auto.
Qed.
(** The positions before (i, j) in row-major order precede it in the list of indices. *)
Lemma zrange_before n i : 0 <= i < n -> exists l2, zrange n = zrange i ++ i :: l2.
Proof.
  intros H. exists (map Z.of_nat (seq (S (Z.to_nat i)) (Z.to_nat n - S (Z.to_nat i)))).
  unfold zrange. rewrite <- (Z2Nat.id i) at 2 by lia.
  change (?l ++ Z.of_nat (Z.to_nat i) :: map Z.of_nat ?t) with (l ++ map Z.of_nat (Z.to_nat i :: t)).
  rewrite <- map_app. f_equal. replace (Z.to_nat n) with (Z.to_nat i + S (Z.to_nat n - S (Z.to_nat i)))%nat at 1 by lia.
  rewrite seq_app. reflexivity.
Qed.
Lemma indices_before n m i j : 0 <= i < n -> 0 <= j < m -> exists l1 l2, indices n m = l1 ++ (i, j) :: l2 /\
  forall i' j', 0 <= i' < n -> 0 <= j' < m -> before i' j' i j -> In (i', j') l1.
Proof.
  intros Hi Hj. unfold indices. destruct (zrange_before n i Hi) as [ri ->]. destruct (zrange_before m j Hj) as [rj Ej].
  assert (P : forall (l l' : list Z) (x : list Z), list_prod (l ++ l') x = list_prod l x ++ list_prod l' x).
  { intros l l' x. induction l as [|a l IH]; cbn; auto. rewrite IH, app_assoc. reflexivity. }
  rewrite P. cbn [list_prod].
  assert (Q : map (fun y => (i, y)) (zrange m) = map (fun y => (i, y)) (zrange j) ++ (i, j) :: map (fun y => (i, y)) rj)
    by (rewrite Ej, map_app; reflexivity). rewrite Q.
  exists (list_prod (zrange i) (zrange m) ++ map (fun y => (i, y)) (zrange j)), (map (fun y => (i, y)) rj ++ list_prod ri (zrange m)).
  split.
  - rewrite <- !app_assoc. cbn. reflexivity.
  - intros i' j' Hi' Hj' [B|[-> B]]; apply in_or_app; [left|right].
    + apply in_prod_iff. rewrite !in_zrange. lia.
    + apply in_map_iff. exists j'. rewrite in_zrange. split; auto. lia.
Qed.
Lemma argmax2_ok a p : argmax2 a = Ok p -> first_max (at2 a) (nr a) (nc a) (fst p) (snd p).
Proof.
  unfold argmax2. destruct (indices (nr a) (nc a)) as [|x l] eqn:E; [discriminate|]. intros [= <-].
  set (f := fun q : Z * Z => at2 a (fst q) (snd q)). destruct (arg_fold f l x) as [I M].
  set (b := fold_left (arg_step f) l x) in *. rewrite <- E in I, M. apply in_indices in I as [I1 I2].
  split; [auto|]. split; [auto|]. split.
  - intros i j Hi Hj. apply (M (i, j)). apply in_indices. auto.
  - intros i j Hi Hj B. destruct (indices_before (nr a) (nc a) (fst b) (snd b) I1 I2) as (l1 & l2 & E2 & B2).
    rewrite <- surjective_pairing in E2. change (f (i, j) < f b)%R.
    apply (arg_fold_first f l x l1 l2).
    + rewrite <- E. apply prod_nodup; apply zrange_NoDup.
    + rewrite <- E. exact E2.
    + apply B2; auto.
Qed.
Lemma argmax2_def a : 0 < nr a -> 0 < nc a -> exists p, argmax2 a = Ok p.
Proof.
  intros H H'. unfold argmax2. destruct (indices (nr a) (nc a)) as [|x l] eqn:E; [|eauto].
  exfalso. assert (I : In (0, 0) (indices (nr a) (nc a))) by (apply in_indices; cbn; lia). rewrite E in I. destruct I.
Qed.
Lemma argmax2_err a e : argmax2 a = Err e -> e = ValueError /\ (nr a <= 0 \/ nc a <= 0).
Proof.
  unfold argmax2. destruct (indices (nr a) (nc a)) as [|x l] eqn:E; [|discriminate]. intros [= <-]. split; auto.
  destruct (Z_le_gt_dec (nr a) 0); [auto|]. destruct (Z_le_gt_dec (nc a) 0); [auto|]. exfalso.
  assert (I : In (0, 0) (indices (nr a) (nc a))) by (apply in_indices; cbn; lia). rewrite E in I. destruct I.
Qed.
Lemma first_max_ext f g n m i j : (forall i j, 0 <= i < n -> 0 <= j < m -> f i j = g i j) ->
  first_max f n m i j -> first_max g n m i j.
Proof.
  intros E (H1 & H2 & H3 & H4). split; [auto|]. split; [auto|]. split; intros.
  - rewrite <- !E by auto. auto.
  - rewrite <- !E by auto. auto.
Qed.
Lemma first_max_scal c f n m i j : (0 < c)%R -> first_max (fun i j => c * f i j)%R n m i j -> first_max f n m i j.
Proof.
  intros Hc (H1 & H2 & H3 & H4). split; [auto|]. split; [auto|]. split; intros.
  - apply (Rmult_le_reg_l c); auto.
  - apply (Rmult_lt_reg_l c); auto.
Qed.

(** ** Transforms *)
Lemma dft_fft (s : arr R) k l : fft2_at (amap RtoC s) k l = dft s k l.
Proof. reflexivity. Qed.
Lemma freq_index_sfreq n k : 0 <= k < n -> freq_index n k = sfreq n k.
Proof.
  intros H. unfold freq_index, sfreq. pose proof (Z.div_mod n 2). pose proof (Z.mod_pos_bound n 2).
  pose proof (Z.div_mod (n - 1) 2). pose proof (Z.mod_pos_bound (n - 1) 2).
  destruct (Z.ltb_spec k ((n - 1) / 2 + 1)).
  - rewrite Z.mod_small; lia.
  - replace (k + n / 2) with (k + n / 2 - n + 1 * n) by lia. rewrite Z.mod_add, Z.mod_small; lia.
Qed.
Lemma sfreq_congr n k : 0 < n -> exists q, sfreq n k = k + n * q.
Proof.
  intros H. exists (- ((k + n / 2) / n)). unfold sfreq. rewrite Z.mod_eq by lia. ring.
Qed.
Lemma sfreq_0 n : 0 < n -> sfreq n 0 = 0.
Proof. intros. unfold sfreq. rewrite Z.mod_small; [lia|]. pose proof (Z.div_mod n 2). pose proof (Z.mod_pos_bound n 2). lia. Qed.
Lemma sfreq_1 n : 2 <= n -> sfreq n 1 = 1 \/ sfreq n 1 = -1.
Proof.
  intros. destruct (Z.eq_dec n 2) as [->|]; [right; reflexivity|left]. unfold sfreq.
  pose proof (Z.div_mod n 2). pose proof (Z.mod_pos_bound n 2). rewrite Z.mod_small; lia.
Qed.
Lemma cis_congr n k p : 0 < n -> cis (2 * PI * (IZR (sfreq n k) * IZR p / IZR n)) = w n (k * p).
Proof.
  intros H. rewrite <- mult_IZR. change (w n (sfreq n k * p) = w n (k * p)).
  destruct (sfreq_congr n k H) as [q ->]. apply (w_congr n _ _ (q * p)); [lia|ring].
Qed.
Lemma cis_congr_opp n k p : 0 < n -> cis (- (2 * PI * (IZR (sfreq n k) * IZR p / IZR n))) = w n (- (k * p)).
Proof. intros H. rewrite <- cis_conj, cis_congr by auto. apply w_conj. Qed.

Lemma csum2_roll_any (f : Z -> Z -> C) n m a b : 0 < n -> 0 < m ->
  csum2 (fun i j => f ((i + a) mod n) ((j + b) mod m)) n m = csum2 f n m.
Proof. apply csum2_roll. Qed.
Lemma w_mod n a : n <> 0 -> w n (a mod n) = w n a.
Proof. intros. rewrite <- (Z.mul_1_r (a mod n)), w_mod_l, Z.mul_1_r by auto. reflexivity. Qed.

Lemma dft_w (s : arr R) k l : dft s k l = csum2 (fun i j => RtoC (at2 s i j) * (w (nr s) (- (i * k)) * w (nc s) (- (j * l))))%C (nr s) (nc s).
Proof. apply csum2_ext. intros. rewrite fft2_kernel. reflexivity. Qed.

(** The inverse transform of S conj T is the circular cross-correlation. *)
Lemma csum_prod4 (F G : Z -> Z -> C) n m :
  (csum2 F n m * csum2 G n m = csum2 (fun i j => csum2 (fun i' j' => F i j * G i' j') n m) n m)%C.
Proof.
  rewrite <- csum2_scal_r. apply csum2_ext. intros. rewrite csum2_scal. reflexivity.
Qed.
Lemma csum2_swap4 (F : Z -> Z -> Z -> Z -> C) n m n' m' :
  csum2 (fun i j => csum2 (fun k l => F i j k l) n' m') n m = csum2 (fun k l => csum2 (fun i j => F i j k l) n m) n' m'.
Proof.
  unfold csum2.
  rewrite (csum_ext _ (fun i => csum (fun k => csum (fun j => csum (fun l => F i j k l) m') m) n')).
  - rewrite csum_swap. apply csum_ext. intros k _.
    rewrite (csum_ext _ (fun i => csum (fun l => csum (fun j => F i j k l) m) m')).
    + rewrite csum_swap. reflexivity.
    + intros i _. apply csum_swap.
  - intros i _. apply csum_swap.
Qed.
Lemma corr_ifft (s t : arr R) p q : 0 < nr s -> 0 < nc s -> nr t = nr s -> nc t = nc s ->
  (csum2 (fun k l => dft s k l * Cconj (dft t k l) * (w (nr s) (k * p) * w (nc s) (l * q))) (nr s) (nc s)
   = RtoC (IZR (nr s) * IZR (nc s)) * RtoC (cross_corr s t p q))%C.
Proof.
  intros Hn Hm E1 E2. set (n := nr s) in *. set (m := nc s) in *.
  rewrite (csum2_ext _ (fun k l => csum2 (fun i j => csum2 (fun i' j' =>
      RtoC (at2 s i j * at2 t i' j') * (w n ((p + i' - i) * k) * w m ((q + j' - j) * l))) n m) n m)%C).
  2:{ intros k l Hk Hl. rewrite !dft_w, csum2_conj. fold n m. rewrite E1, E2. fold n m.
      rewrite csum_prod4, <- csum2_scal_r. apply csum2_ext. intros i j Hi Hj. rewrite <- csum2_scal_r.
      apply csum2_ext. intros i' j' Hi' Hj'. rewrite !Cconj_mult', Cconj_R, !w_conj, RtoC_mult.
      replace ((p + i' - i) * k) with (- (i * k) + - - (i' * k) + k * p) by ring.
      replace ((q + j' - j) * l) with (- (j * l) + - - (j' * l) + l * q) by ring.
      rewrite !w_add. ring. }
  rewrite csum2_swap4.
  rewrite (csum2_ext _ (fun i j => csum2 (fun i' j' => RtoC (at2 s i j * at2 t i' j') *
     ((if (p + i' - i) mod n =? 0 then RtoC (IZR n) else RtoC 0) * (if (q + j' - j) mod m =? 0 then RtoC (IZR m) else RtoC 0))) n m)%C).
  2:{ intros i j Hi Hj. rewrite csum2_swap4. apply csum2_ext. intros i' j' Hi' Hj'. rewrite csum2_scal. f_equal.
      unfold csum2. rewrite <- csum_prod. rewrite !w_sum by auto. reflexivity. }
  rewrite csum2_swap4. unfold cross_corr. fold n m. rewrite <- csum2_RtoC, <- csum2_scal.
  apply csum2_ext. intros i' j' Hi' Hj'.
  rewrite <- (csum2_delta (fun i j => RtoC (IZR n * IZR m) * RtoC (at2 s i j * at2 t i' j'))%C n m ((i' + p) mod n) ((j' + q) mod m));
    try (apply Z.mod_pos_bound; lia).
  apply csum2_ext. intros i j Hi Hj.
  assert (Q : forall N x y, 0 < N -> 0 <= y < N -> ((x - y) mod N =? 0) = (y =? x mod N)).
  { intros N x y HN Hy. destruct (Z.eqb_spec y (x mod N)) as [->|Ne].
    - apply Z.eqb_eq. rewrite Zminus_mod_idemp_r, Z.sub_diag. apply Z.mod_0_l. lia.
    - apply Z.eqb_neq. intros H. apply Ne. apply Z.mod_divide in H as [d H]; [|lia].
      replace x with (y + d * N) by lia. rewrite Z.mod_add, Z.mod_small; lia. }
  rewrite !Q by auto. rewrite (Z.add_comm p), (Z.add_comm q).
  destruct (i =? (i' + p) mod n), (j =? (j' + q) mod m); cbn [andb]; rewrite ?RtoC_mult; ring.
Qed.
Lemma trig_whole (s t : arr R) p q : 0 < nr s -> 0 < nc s -> nr t = nr s -> nc t = nc s ->
  trig_corr s t (IZR p) (IZR q) = RtoC (cross_corr s t p q).
Proof.
  intros Hn Hm E1 E2. unfold trig_corr.
  rewrite (csum2_ext _ (fun k l => dft s k l * Cconj (dft t k l) * (w (nr s) (k * p) * w (nc s) (l * q)))%C).
  - rewrite corr_ifft by auto. field. intros H. apply RtoC_inj in H. apply Rmult_integral in H as [H|H]; apply eq_IZR in H; lia.
  - intros k l Hk Hl. f_equal. rewrite Rmult_plus_distr_l, cis_add, !cis_congr by auto. reflexivity.
Qed.

(** ** What peak_shift returns *)
Lemma wrap_ok n p : 0 <= p < n -> (exists k, wrap_shift n p = p + n * k) /\ - n < 2 * wrap_shift n p <= n.
Proof.
  intros H. unfold wrap_shift. pose proof (Z.div_mod n 2). pose proof (Z.mod_pos_bound n 2).
  destruct (Z.ltb_spec (n / 2) p); (split; [|lia]).
  - exists (-1). ring.
  - exists 0. ring.
Qed.
Lemma Cmod_conj z : Cmod (Cconj z) = Cmod z.
Proof. unfold Cmod, Cconj. cbn [fst snd]. f_equal. ring. Qed.
Lemma Cmod_RC x : Cmod (RtoC x) = Rabs x.
Proof. apply Cmod_R. Qed.
Lemma RC_neq0 x : x <> 0%R -> RtoC x <> RtoC 0.
Proof. intros H E. apply RtoC_inj in E. auto. Qed.
Lemma nm_neq0 n m : 0 < n -> 0 < m -> (IZR n * IZR m <> 0)%R.
Proof. intros. apply Rmult_integral_contrapositive. split; apply not_0_IZR; lia. Qed.

(** One kernel of the upsampled transform. *)
Lemma kernel_conj n u off a k : 0 <= k < n -> u <> 0%R ->
  Cconj (ups_kernel n u off a k) = cis (2 * PI * (IZR (sfreq n k) * ((IZR a - off) / u) / IZR n)).
Proof.
  intros Hk Hu. unfold ups_kernel. rewrite cis_conj. f_equal. unfold fftfreq. rewrite freq_index_sfreq by auto.
  assert (IZR n <> 0%R) by (apply not_0_IZR; lia). field. auto.
Qed.
Lemma upsampled_ok (s t : arr R) region u offy offx up : nr t = nr s -> nc t = nc s ->
  compute_upsampled_dft (amap Cconj (amap2 (fun a b => a * Cconj b)%C (Arr (nr s) (nc s) (dft s)) (Arr (nr t) (nc t) (dft t))))
    region u offy offx = Ok up ->
  nr up = Z.max 0 region /\ nc up = Z.max 0 region /\ u <> 0%R /\
  forall a b, Cconj (at2 up a b) = (RtoC (IZR (nr s) * IZR (nc s)) * trig_corr s t ((IZR a - offy) / u) ((IZR b - offx) / u))%C.
Proof.
  intros E1 E2 H. unfold compute_upsampled_dft in H. apply guard_ok in H as [Hu H]. apply guard_ok in H as [Hne H].
  injection H as <-. destruct (Req_EM_T u 0) as [|Nu]; [discriminate|]. unfold nonempty in Hne. cbn [nr nc amap amap2] in Hne.
  apply andb_true_iff in Hne as [Hn Hm]. apply Z.ltb_lt in Hn, Hm.
  split; [reflexivity|]. split; [reflexivity|]. split; [auto|]. intros a b.
  cbn [at2 tensordot nr nc amap amap2]. rewrite csum_conj.
  unfold trig_corr. transitivity (csum2 (fun k l => dft s k l * Cconj (dft t k l) * cis (2 * PI * (IZR (sfreq (nr s) k) * ((IZR a - offy) / u) / IZR (nr s) +
       IZR (sfreq (nc s) l) * ((IZR b - offx) / u) / IZR (nc s)))) (nr s) (nc s))%C.
  2:{ field. apply RC_neq0, nm_neq0; auto. }
  unfold csum2. apply csum_ext. intros k Hk. rewrite Cconj_mult', csum_conj, <- csum_scal. apply csum_ext. intros l Hl.
  rewrite Cconj_mult', !kernel_conj by auto. rewrite Cconj_inv2, Rmult_plus_distr_l, cis_add. ring.
Qed.

Definition coarse_peak (s t : arr R) (y x : Z) : Prop :=
  exists p q, first_max (fun p q => Rabs (cross_corr s t p q)) (nr s) (nc s) p q /\ y = wrap_shift (nr s) p /\ x = wrap_shift (nc s) q.
Lemma peak_ok s t u pad y x : nr t = nr s -> nc t = nc s -> peak_shift s t u pad = Ok (y, x) ->
  0 < nr s /\ 0 < nc s /\ exists p q, first_max (fun p q => Rabs (cross_corr s t p q)) (nr s) (nc s) p q /\
  let y0 := IZR (wrap_shift (nr s) p) in let x0 := IZR (wrap_shift (nc s) q) in
  (u = 1%R -> y = y0 /\ x = x0) /\
  (u <> 1%R -> u <> 0%R /\ let g := Zceil (u * pad) in
     let Y a := (IZR (ZnearestE (y0 * u)) / u + IZR (a - g / 2) / u)%R in
     let X b := (IZR (ZnearestE (x0 * u)) / u + IZR (b - g / 2) / u)%R in
     exists a b, first_max (fun a b => Cmod (trig_corr s t (Y a) (X b))) g g a b /\ y = Y a /\ x = X b).
Proof.
  intros E1 E2 H. unfold peak_shift in H. unfold fft2 at 1 in H. inv_bind H. apply guard_ok in E as [Ne E]. injection E as <-.
  unfold fft2 in H. inv_bind H. apply guard_ok in E as [_ E]. injection E as <-. cbn [nr nc amap amap2] in H.
  assert (P : 0 < nr s /\ 0 < nc s).
  { unfold nonempty in Ne. cbn [nr nc amap] in Ne. apply andb_true_iff in Ne as [A B]. apply Z.ltb_lt in A, B. auto. }
  destruct P as [Hn Hm]. split; [auto|]. split; [auto|].
  inv_bind H. unfold ifft2 in E. apply guard_ok in E as [_ E]. injection E as <-. cbn [nr nc amap amap2] in H. inv_bind H.
  apply argmax2_ok in E. cbn [nr nc amap amap2] in E. destruct v as [p q]. cbn [fst snd] in E, H. exists p, q.
  split.
  { eapply first_max_ext; [|exact E]. intros i j Hi Hj. cbn [at2 amap]. rewrite <- Cmod_RC. f_equal. unfold ifft2_at. cbn [nr nc amap amap2 at2].
    rewrite (csum2_ext _ (fun k l => dft s k l * Cconj (dft t k l) * (w (nr s) (k * i) * w (nc s) (l * j)))%C).
    - rewrite corr_ifft by auto. field. apply RC_neq0, nm_neq0; auto.
    - intros k l Hk Hl. rewrite ifft2_kernel. reflexivity. }
  intros y0 x0. change (IZR (wrap_shift (nr s) p)) with y0 in H. change (IZR (wrap_shift (nc s) q)) with x0 in H. destruct (Req_EM_T u 1) as [U|U].
  - injection H as <- <-. split; [auto|]. intros; contradiction.
  - split; [intros; contradiction|]. intros _. apply guard_ok in H as [Hg H]. apply Z.ltb_lt in Hg.
    set (g := Zceil (u * pad)) in *. inv_bind H. apply (upsampled_ok s t) in E0 as (S1 & S2 & Nu & V); auto.
    split; [auto|]. intros g0 Y X. subst g0. inv_bind H. destruct v0 as [a b]. cbn [fst snd] in H. injection H as <- <-.
    exists a, b. split; [|split; reflexivity]. apply argmax2_ok in E0. cbn [nr nc amap fst snd] in E0. rewrite S1, S2 in E0.
    replace (Z.max 0 g) with g in E0 by lia.
    apply (first_max_scal (/ u ^ 2)); [apply Rinv_0_lt_compat; assert (0 < u * u)%R by (apply Rlt_0_sqr; auto); lra|].
    eapply first_max_ext; [|exact E0]. intros i j Hi Hj. cbn [at2 amap]. rewrite V.
    assert (N2 : (IZR (nr s) * IZR (nc s) <> 0)%R) by (apply nm_neq0; auto).
    assert (N3 : (IZR (nr s * nc s) * u ^ 2 <> 0)%R).
    { rewrite mult_IZR. apply Rmult_integral_contrapositive. split; auto. apply pow_nonzero; auto. }
    rewrite Cmod_div by (apply RC_neq0; auto). rewrite Cmod_mult, !Cmod_RC.
    assert (A1 : ((IZR i - (IZR (g / 2) - IZR (ZnearestE (y0 * u)) / u * u)) / u = Y i)%R).
    { unfold Y. rewrite minus_IZR. field. auto. }
    assert (A2 : ((IZR j - (IZR (g / 2) - IZR (ZnearestE (x0 * u)) / u * u)) / u = X j)%R).
    { unfold X. rewrite minus_IZR. field. auto. }
    rewrite A1, A2, mult_IZR, (Rabs_mult _ (u ^ 2)), (Rabs_right (u ^ 2)) by (apply Rle_ge, pow2_ge_0).
    field. split; [auto|apply Rabs_no_R0; auto].
Qed.
Lemma peak_def s t u pad : nr t = nr s -> nc t = nc s -> 0 < nr s -> 0 < nc s -> (u = 1%R \/ (0 < u * pad)%R) ->
  exists r, peak_shift s t u pad = Ok r.
Proof.
  intros E1 E2 Hn Hm HU. unfold peak_shift, fft2, ifft2. cbn [nr nc amap].
  rewrite !guard_true by (apply nonempty_true; cbn; lia). cbn [bind]. rewrite guard_true by (apply nonempty_true; cbn; lia). cbn [bind].
  match goal with |- context [argmax2 ?a] => destruct (argmax2_def a) as [[p q] ->]; [cbn; auto|cbn; auto|] end. cbn [bind fst snd].
  destruct (Req_EM_T u 1) as [|U]; [eauto|]. destruct HU as [|HU]; [contradiction|].
  assert (G : 0 < Zceil (u * pad)). { apply lt_IZR. pose proof (Zceil_ub (u * pad)). lra. }
  assert (Nu : u <> 0%R) by (intros ->; lra).
  rewrite guard_true by (apply Z.ltb_lt; auto). unfold compute_upsampled_dft.
  rewrite guard_true by (destruct (Req_EM_T u 0); [contradiction|auto]).
  rewrite guard_true by (apply nonempty_true; cbn; lia). cbn [bind].
  match goal with |- context [argmax2 ?a] => destruct (argmax2_def a) as [[p' q'] ->]; [cbn; lia|cbn; lia|] end. cbn [bind]. eauto.
Qed.

(** ** Sums of phasors *)
Lemma cis_unit t : Cmod (cis t) = 1%R.
Proof.
  unfold Cmod, cis. cbn [fst snd]. rewrite <- sqrt_1. f_equal. pose proof (sin2_cos2 t) as H. unfold Rsqr in H. lra.
Qed.
Lemma re_unit z : (fst z <= Cmod z)%R.
Proof. pose proof (Rmax_Cmod z). pose proof (Rmax_l (Rabs (fst z)) (Rabs (snd z))). pose proof (Rle_abs (fst z)). lra. Qed.
Lemma csum2_fst (f : Z -> Z -> C) n m : fst (csum2 f n m) = rsum2 (fun i j => fst (f i j)) n m.
Proof. unfold csum2, rsum2. rewrite csum_fst. apply rsum_ext. intros. apply csum_fst. Qed.
Lemma unit_re_1 z : Cmod z = 1%R -> fst z = 1%R -> z = RtoC 1.
Proof.
  intros H1 H2. assert (N : (fst z * fst z + snd z * snd z = 1)%R).
  { unfold Cmod in H1. assert (Q : (fst z ^ 2 + snd z ^ 2 = 1)%R).
    { rewrite <- (sqrt_sqrt (fst z ^ 2 + snd z ^ 2)); [rewrite H1; ring|]. pose proof (pow2_ge_0 (fst z)). pose proof (pow2_ge_0 (snd z)). lra. }
    lra. }
  rewrite H2 in N. destruct z as [a b]. cbn in *. subst a. assert (b = 0)%R by nra. subst b. reflexivity.
Qed.
Section Phasors.
Variables (W T : Z -> Z -> R) (n m : Z).
Hypothesis W0 : forall i j, 0 <= i < n -> 0 <= j < m -> (0 <= W i j)%R.
Let z := csum2 (fun i j => RtoC (W i j) * cis (T i j))%C n m.
Let tot := rsum2 W n m.
Lemma phasor_dir : (0 < Cmod z)%R -> exists e, Cmod e = 1%R /\ Cmod z = rsum2 (fun i j => W i j * fst (cis (T i j) * e)%C)%R n m.
Proof.
  intros Hz. assert (Nz : RtoC (Cmod z) <> RtoC 0) by (apply RC_neq0; lra).
  exists (Cconj z / RtoC (Cmod z))%C. split.
  - rewrite Cmod_div, Cmod_RC, Rabs_right, Cmod_conj by (auto; lra). field. lra.
  - assert (Q : (z * (Cconj z / RtoC (Cmod z)) = RtoC (Cmod z))%C).
    { assert (Q : (z * Cconj z = RtoC (Cmod z) * RtoC (Cmod z))%C).
      { rewrite <- Cmod2_conj, <- RtoC_mult. f_equal. unfold Cmod2, Cmod. rewrite sqrt_sqrt; [ring|].
        pose proof (pow2_ge_0 (fst z)). pose proof (pow2_ge_0 (snd z)). lra. }
      transitivity ((z * Cconj z) / RtoC (Cmod z))%C; [field; auto|]. rewrite Q. field. auto. }
    set (e := (Cconj z / RtoC (Cmod z))%C) in *. transitivity (fst (RtoC (Cmod z))); [reflexivity|]. rewrite <- Q.
    unfold z at 1. rewrite <- csum2_scal_r, csum2_fst. apply rsum2_ext. intros i j Hi Hj.
    destruct (cis (T i j)) as [a b], e as [c d]. cbn. ring.
Qed.
Lemma phasor_le : (Cmod z <= tot)%R.
Proof.
  destruct (Rle_lt_dec (Cmod z) 0) as [L|L].
  - apply Rle_trans with 0%R; auto. apply rsum2_nonneg. auto.
  - destruct (phasor_dir L) as (e & U & ->). apply rsum2_le. intros i j Hi Hj.
    pose proof (re_unit (cis (T i j) * e)%C) as B. rewrite Cmod_mult, cis_unit, U in B. pose proof (W0 i j Hi Hj). nra.
Qed.
Lemma phasor_eq : (0 < tot)%R -> Cmod z = tot -> forall i j i' j', 0 <= i < n -> 0 <= j < m -> 0 <= i' < n -> 0 <= j' < m ->
  (0 < W i j)%R -> (0 < W i' j')%R -> cis (T i j) = cis (T i' j').
Proof.
  intros P E. assert (L : (0 < Cmod z)%R) by (rewrite E; auto). destruct (phasor_dir L) as (e & U & V).
  assert (A : forall i j, 0 <= i < n -> 0 <= j < m -> (0 < W i j)%R -> (cis (T i j) * e = RtoC 1)%C).
  { intros i j Hi Hj HW. apply unit_re_1; [rewrite Cmod_mult, cis_unit, U; ring|].
    assert (B : forall i j, 0 <= i < n -> 0 <= j < m -> (0 <= W i j * (1 - fst (cis (T i j) * e)%C))%R).
    { intros k l Hk Hl. apply Rmult_le_pos; auto. pose proof (re_unit (cis (T k l) * e)%C) as B. rewrite Cmod_mult, cis_unit, U in B. lra. }
    assert (Z0 : rsum2 (fun i j => W i j * (1 - fst (cis (T i j) * e)%C))%R n m = 0%R).
    { rewrite (rsum2_ext _ (fun i j => W i j - W i j * fst (cis (T i j) * e)%C)%R) by (intros; ring).
      rewrite rsum2_sub. fold tot. rewrite <- V, E. ring. }
    pose proof (rsum2_nonneg_zero _ _ _ B Z0 i j Hi Hj) as Q. cbn beta in Q. apply Rmult_integral in Q as [Q|Q]; lra. }
  intros i j i' j' Hi Hj Hi' Hj' H1 H2. pose proof (A i j Hi Hj H1) as Q1. pose proof (A i' j' Hi' Hj' H2) as Q2.
  assert (Ne : e <> RtoC 0). { intros ->. rewrite Cmod_R, Rabs_R0 in U. lra. }
  transitivity (cis (T i j) * e * / e)%C; [field; auto|]. rewrite Q1, <- Q2. field. auto.
Qed.
End Phasors.

(** ** Fourier-shifted targets *)
Lemma sfreq_small n k : 0 < n -> - (n / 2) <= k < n - n / 2 -> sfreq n (k mod n) = k.
Proof. intros Hn Hk. unfold sfreq. rewrite Zplus_mod_idemp_l, Z.mod_small by lia. lia. Qed.
Lemma dft_mod s k l : 0 < nr s -> 0 < nc s -> dft s (k mod nr s) (l mod nc s) = dft s k l.
Proof.
  intros Hn Hm. rewrite !dft_w. apply csum2_ext. intros i j _ _. f_equal. f_equal.
  - rewrite <- !w_conj, !(Z.mul_comm i). f_equal. apply w_mod_l. lia.
  - rewrite <- !w_conj, !(Z.mul_comm j). f_equal. apply w_mod_l. lia.
Qed.
Section Shifted.
Variables (s t : arr R) (c dy dx : R).
Hypothesis F : fourier_shift s c dy dx t.
Hypotheses (Hn : 0 < nr s) (Hm : 0 < nc s).
Let n := nr s. Let m := nc s.
Let W k l := Cmod2 (dft s k l).
Let T y x k l : R := (2 * PI * (IZR (sfreq n k) * (y + dy) / IZR n + IZR (sfreq m l) * (x + dx) / IZR m))%R.
Lemma trig_shift y x : trig_corr s t y x
  = (RtoC (c / (IZR n * IZR m)) * csum2 (fun k l => RtoC (W k l) * cis (T y x k l)) n m)%C.
Proof.
  destruct F as (E1 & E2 & V). unfold trig_corr.
  transitivity (RtoC (/ (IZR n * IZR m)) * csum2 (fun k l => RtoC c * (RtoC (W k l) * cis (T y x k l))) n m)%C.
  - fold n m. rewrite RtoC_inv by (apply nm_neq0; auto). unfold Cdiv. rewrite Cmult_comm. f_equal.
    apply csum2_ext. intros k l Hk Hl. rewrite V by (split; auto). fold n m. rewrite !Cconj_mult', Cconj_R, cis_conj.
    unfold W. rewrite Cmod2_conj. unfold T.
    replace (2 * PI * (IZR (sfreq n k) * (y + dy) / IZR n + IZR (sfreq m l) * (x + dx) / IZR m))%R with
     (- - (2 * PI * (IZR (sfreq n k) * dy / IZR n + IZR (sfreq m l) * dx / IZR m))
       + 2 * PI * (IZR (sfreq n k) * y / IZR n + IZR (sfreq m l) * x / IZR m))%R
      by (field; split; apply not_0_IZR; unfold n, m; lia).
    rewrite cis_add. ring.
  - rewrite csum2_scal. unfold Rdiv. rewrite RtoC_mult. ring.
Qed.
Let tot := rsum2 W n m.
Let K := Rabs (c / (IZR n * IZR m)).
Lemma trig_mod y x : (Cmod (trig_corr s t y x) = K * Cmod (csum2 (fun k l => RtoC (W k l) * cis (T y x k l)) n m)%C)%R.
Proof. rewrite trig_shift, Cmod_mult, Cmod_RC. reflexivity. Qed.
Lemma W_nonneg k l : 0 <= k < n -> 0 <= l < m -> (0 <= W k l)%R.
Proof. intros. apply Cmod2_nonneg. Qed.
Lemma trig_le y x : (Cmod (trig_corr s t y x) <= K * tot)%R.
Proof.
  rewrite trig_mod. apply Rmult_le_compat_l; [apply Rabs_pos|].
  apply (phasor_le W (T y x) n m). exact W_nonneg.
Qed.
Lemma trig_at : Cmod (trig_corr s t (- dy) (- dx)) = (K * tot)%R.
Proof.
  rewrite trig_mod. f_equal. rewrite (csum2_ext _ (fun k l => RtoC (W k l))).
  - rewrite csum2_RtoC, Cmod_RC, Rabs_right; [reflexivity|]. apply Rle_ge, rsum2_nonneg. exact W_nonneg.
  - intros k l _ _. replace (T (- dy) (- dx) k l) with 0%R; [rewrite cis_0; ring|]. unfold T, Rdiv. ring.
Qed.
Lemma trig_strict y x : c <> 0%R -> varies s -> Cmod (trig_corr s t y x) = (K * tot)%R ->
  (exists k, (y + dy = IZR n * IZR k)%R) /\ (exists k, (x + dx = IZR m * IZR k)%R).
Proof.
  intros Nc ((k1 & l1 & B1 & B1' & V1 & V1') & (k2 & l2 & B2 & B2' & V2 & V2')) E.
  assert (WP : forall k l, dft s k l <> RtoC 0 -> (0 < W (k mod n) (l mod m))%R).
  { intros k l H. unfold W. unfold n, m. rewrite dft_mod by auto. destruct (Rle_lt_or_eq_dec 0 (Cmod2 (dft s k l))) as [|Q]; auto; [apply Cmod2_nonneg|].
    exfalso. apply H. apply Cmod2_zero. auto. }
  assert (Ik : forall k, 0 <= k mod n < n) by (intros; apply Z.mod_pos_bound; auto).
  assert (Il : forall l, 0 <= l mod m < m) by (intros; apply Z.mod_pos_bound; auto).
  assert (TP : (0 < tot)%R).
  { apply Rlt_le_trans with (W (k1 mod n) (l1 mod m)); [auto|]. apply (rsum2_term_le W n m (k1 mod n) (l1 mod m)); auto. exact W_nonneg. }
  assert (KP : (0 < K)%R).
  { apply Rabs_pos_lt. unfold Rdiv. apply Rmult_integral_contrapositive. split; auto. apply Rinv_neq_0_compat, nm_neq0; auto. }
  rewrite trig_mod in E. apply Rmult_eq_reg_l in E; [|lra].
  pose proof (phasor_eq W (T y x) n m W_nonneg TP E) as PE.
  assert (Cq : forall a b, cis a = cis b -> exists k, (b - a = 2 * PI * IZR k)%R).
  { intros a b Q. apply cis_eq_1. replace (b - a)%R with (b + - a)%R by ring. rewrite cis_add, <- Q, <- cis_add, Rplus_opp_r, cis_0. reflexivity. }
  assert (Dv : forall N z k, 0 < N -> (2 * PI * (z / IZR N) = 2 * PI * IZR k)%R -> (z = IZR N * IZR k)%R).
  { intros N z k HN Q. assert (Nn : IZR N <> 0%R) by (apply not_0_IZR; lia). pose proof PI_RGT_0. apply Rmult_eq_reg_l in Q; [|lra]. rewrite <- Q. field. auto. }
  split.
  - destruct (Cq _ _ (PE _ _ _ _ (Ik _) (Il _) (Ik _) (Il _) (WP _ _ V1) (WP _ _ V1'))) as [k Q]. exists k. apply (Dv n); auto. rewrite <- Q. unfold T.
    rewrite (sfreq_small n k1), (sfreq_small n (k1 + 1)) by (unfold n; lia). rewrite plus_IZR. unfold Rdiv. ring.
  - destruct (Cq _ _ (PE _ _ _ _ (Ik _) (Il _) (Ik _) (Il _) (WP _ _ V2) (WP _ _ V2'))) as [k Q]. exists k. apply (Dv m); auto. rewrite <- Q. unfold T.
    rewrite (sfreq_small m l2), (sfreq_small m (l2 + 1)) by (unfold m; lia). rewrite plus_IZR. unfold Rdiv. ring.
Qed.
End Shifted.

(** A circular shift is a Fourier shift. *)
Lemma circular_fourier s c dy dx t : 0 < nr s -> 0 < nc s -> circular_shift s c dy dx t ->
  fourier_shift s c (IZR dy) (IZR dx) t.
Proof.
  intros Hn Hm (E1 & E2 & V). split; [auto|]. split; [auto|]. intros k l [Hk Hl].
  rewrite Rmult_plus_distr_l, Ropp_plus_distr, cis_add, !cis_congr_opp by auto.
  rewrite !dft_w, E1, E2. set (n := nr s) in *. set (m := nc s) in *.
  rewrite <- (csum2_roll (fun i j => RtoC (at2 s i j) * (w n (- (i * k)) * w m (- (j * l))))%C n m (- dy) (- dx)) by auto.
  rewrite <- csum2_scal, <- csum2_scal_r. apply csum2_ext. intros i j Hi Hj.
  rewrite V by (split; lia). fold n m. rewrite !Z.add_opp_r, RtoC_mult.
  assert (Q : forall N a k, 0 < N -> w N (- (a mod N * k)) = w N (- (a * k))).
  { intros N a e HN. rewrite <- !w_conj. f_equal. apply w_mod_l. lia. }
  rewrite !Q by auto.
  replace (- (i * k)) with (- ((i - dy) * k) + - (k * dy)) by ring.
  replace (- (j * l)) with (- ((j - dx) * l) + - (l * dx)) by ring. rewrite !w_add. ring.
Qed.
Lemma mod_shift i a n : 0 < n -> (i + a mod n) mod n = (i + a) mod n.
Proof. intros. apply Zplus_mod_idemp_r. Qed.
Lemma corr_periodic s t p q : 0 < nr s -> 0 < nc s -> cross_corr s t (p mod nr s) (q mod nc s) = cross_corr s t p q.
Proof. intros Hn Hm. unfold cross_corr. apply rsum2_ext. intros. rewrite !mod_shift by auto. reflexivity. Qed.

(** ** The coarse peak for circular shifts *)
Section Coarse.
Variables (s t : arr R) (c : R) (dy dx p q : Z).
Hypothesis Sh : circular_shift s c dy dx t.
Hypotheses (Hn : 0 < nr s) (Hm : 0 < nc s).
Hypothesis Hc : c <> 0%R.
Hypothesis M : first_max (fun p q => Rabs (cross_corr s t p q)) (nr s) (nc s) p q.
Lemma peak_max : forall p' q', (Rabs (cross_corr s t p' q') <= Rabs (cross_corr s t p q))%R.
Proof.
  intros p' q'. rewrite <- corr_periodic by auto. destruct M as (_ & _ & M' & _). apply M'; apply Z.mod_pos_bound; lia.
Qed.
Lemma coarse_exact : varies s -> (exists k, p = - dy + nr s * k) /\ (exists k, q = - dx + nc s * k).
Proof.
  intros Hv. pose proof (circular_fourier s c dy dx t Hn Hm Sh) as F. destruct Sh as (E1 & E2 & _).
  pose proof (trig_at s t c _ _ F Hn Hm) as A. pose proof (trig_le s t c _ _ F Hn Hm (IZR p) (IZR q)) as L.
  rewrite <- !opp_IZR, !trig_whole, Cmod_RC in A by auto. rewrite trig_whole, Cmod_RC in L by auto.
  pose proof (peak_max (- dy) (- dx)) as P.
  assert (Q : Cmod (trig_corr s t (IZR p) (IZR q)) = (Rabs (c / (IZR (nr s) * IZR (nc s))) * rsum2 (fun k l => Cmod2 (dft s k l)) (nr s) (nc s))%R).
  { rewrite trig_whole, Cmod_RC by auto. apply Rle_antisym; [exact L|]. eapply Rle_trans; [|exact P]. apply Req_le. symmetry. exact A. }
  destruct (trig_strict s t c _ _ F Hn Hm _ _ Hc Hv Q) as [Q1 Q2]. split.
  - destruct Q1 as [k K].
    exists k. rewrite <- plus_IZR, <- mult_IZR in K. apply eq_IZR in K. lia.
  - destruct Q2 as [k K].
    exists k. rewrite <- plus_IZR, <- mult_IZR in K. apply eq_IZR in K. lia.
Qed.

Lemma rsum2_roll (f : Z -> Z -> R) a b : rsum2 (fun i j => f ((i + a) mod nr s) ((j + b) mod nc s)) (nr s) (nc s) = rsum2 f (nr s) (nc s).
Proof.
  unfold rsum2. rewrite (rsum_roll (fun i => rsum (fun j => f i ((j + b) mod nc s)) (nc s)) (nr s) a) by auto.
  apply rsum_ext. intros i Hi. apply (rsum_roll (fun j => f i j)); auto.
Qed.
(** Whatever the source, the coarse shift maps it onto the target, up to sign. *)
Lemma coarse_explains : exists e, (e = c \/ e = - c)%R /\ circular_shift s e (- p) (- q) t.
Proof.
  destruct Sh as (E1 & E2 & V). set (A i j := at2 s ((i + p) mod nr s) ((j + q) mod nc s)).
  set (B i j := at2 s ((i + - dy) mod nr s) ((j + - dx) mod nc s)).
  set (E := rsum2 (fun i j => (at2 s i j) ^ 2)%R (nr s) (nc s)).
  assert (EA : rsum2 (fun i j => (A i j) ^ 2)%R (nr s) (nc s) = E) by apply (rsum2_roll (fun i j => (at2 s i j) ^ 2)%R).
  assert (EB : rsum2 (fun i j => (B i j) ^ 2)%R (nr s) (nc s) = E) by apply (rsum2_roll (fun i j => (at2 s i j) ^ 2)%R).
  assert (VB : forall i j, 0 <= i < nr s -> 0 <= j < nc s -> at2 t i j = (c * B i j)%R).
  { intros i j Hi Hj. rewrite V by (split; lia). reflexivity. }
  assert (CC : forall a b, cross_corr s t a b = (c * rsum2 (fun i j => at2 s ((i + a) mod nr s) ((j + b) mod nc s) * B i j) (nr s) (nc s))%R).
  { intros a b. rewrite <- rsum2_scal. apply rsum2_ext. intros i j Hi Hj. rewrite VB by auto. ring. }
  pose proof (peak_max (- dy) (- dx)) as P. rewrite !CC in P.
  change (fun i j => (at2 s ((i + p) mod nr s) ((j + q) mod nc s) * B i j)%R) with (fun i j => (A i j * B i j)%R) in P.
  rewrite (rsum2_ext (fun i j => _ * B i j)%R (fun i j => B i j ^ 2)%R) in P by (intros; unfold B; ring). rewrite EB in P.
  set (X := rsum2 (fun i j => A i j * B i j)%R (nr s) (nc s)) in P.
  assert (E0 : (0 <= E)%R) by (apply rsum2_nonneg; intros; apply pow2_ge_0).
  assert (AX : (E <= Rabs X)%R).
  { rewrite !Rabs_mult, (Rabs_right E) in P by lra. apply Rmult_le_reg_l in P; auto. apply Rabs_pos_lt; auto. }
  assert (Sq : forall e, (e = 1 \/ e = -1)%R -> (E <= e * X)%R -> forall i j, 0 <= i < nr s -> 0 <= j < nc s -> B i j = (e * A i j)%R).
  { intros e He HX i j Hi Hj.
    assert (Z0 : rsum2 (fun i j => (B i j - e * A i j) ^ 2)%R (nr s) (nc s) = 0%R).
    { apply Rle_antisym; [|apply rsum2_nonneg; intros; apply pow2_ge_0].
      rewrite (rsum2_ext _ (fun i j => B i j ^ 2 - (2 * e * (A i j * B i j) - A i j ^ 2))%R).
      - rewrite rsum2_sub, rsum2_sub, rsum2_scal, EA, EB. fold X. lra.
      - intros. destruct He as [-> | ->]; ring. }
    pose proof (rsum2_nonneg_zero _ _ _ (fun i j _ _ => pow2_ge_0 (B i j - e * A i j)) Z0 i j Hi Hj) as Q. cbn beta in Q.
    assert (B i j - e * A i j = 0)%R by nra. lra. }
  assert (D : exists e, (e = 1 \/ e = -1)%R /\ (E <= e * X)%R).
  { unfold Rabs in AX. destruct (Rcase_abs X); [exists (-1)%R|exists 1%R]; (split; [auto|lra]). }
  destruct D as (e & He & HX). exists (c * e)%R. split; [destruct He as [-> | ->]; [left|right]; ring|].
  split; [auto|]. split; [auto|]. intros i j [Hi Hj]. rewrite E1 in Hi. rewrite E2 in Hj.
  rewrite VB, (Sq e He HX) by auto. unfold A. rewrite !Z.sub_opp_r. ring.
Qed.
End Coarse.

Lemma circular_mod s c dy dx t k l : circular_shift s c dy dx t -> 0 < nr s -> 0 < nc s ->
  circular_shift s c (dy + nr s * k) (dx + nc s * l) t.
Proof.
  intros (E1 & E2 & V) Hn Hm. split; [auto|]. split; [auto|]. intros i j H. rewrite V by auto. do 2 f_equal.
  - replace (i - (dy + nr s * k)) with (i - dy + - k * nr s) by ring. rewrite Z.mod_add by lia. reflexivity.
  - replace (j - (dx + nc s * l)) with (j - dx + - l * nc s) by ring. rewrite Z.mod_add by lia. reflexivity.
Qed.

(** ** psffit *)
Lemma psffit_inv shift s t cfg ry rx amp : psffit shift s t cfg = Ok ((ry, rx), amp) ->
  exists k, read_config cfg = Ok k /\ nr t = nr s /\ nc t = nc s /\
  peak_shift s t (upsample_factor k) (pad_factor k) = Ok (- ry, - rx)%R /\
  amp = amplitude_ratio t (shift s ry rx) (amp_thresh k).
Proof.
  intros H. unfold psffit in H. inv_bind H. apply guard_ok in H as [S H]. apply same_shape_iff in S as [S1 S2].
  inv_bind H. destruct v0 as [y x]. cbn [fst snd] in H. injection H as <- <- <-. exists v.
  rewrite !Ropp_involutive. auto.
Qed.
Lemma psffit_unit shift s t cfg k c dy dx ry rx amp : psffit shift s t cfg = Ok ((ry, rx), amp) ->
  read_config cfg = Ok k -> upsample_factor k = 1%R -> c <> 0%R -> circular_shift s c dy dx t ->
  exists y x e, ry = IZR y /\ rx = IZR x /\ - nr s <= 2 * y < nr s /\ - nc s <= 2 * x < nc s /\
    (e = c \/ e = - c)%R /\ circular_shift s e y x t.
Proof.
  intros H Hk Hu Hc Sh. apply psffit_inv in H as (k' & Ek & E1 & E2 & P & _). rewrite Hk in Ek. injection Ek as <-.
  apply peak_ok in P as (Hn & Hm & p & q & M & P1 & _); auto. destruct (P1 Hu) as [Y X].
  destruct (coarse_explains s t c dy dx p q Sh Hn Hm Hc M) as (e & He & Se).
  destruct M as (Ip & Iq & _). destruct (wrap_ok _ _ Ip) as [[a A] B]. destruct (wrap_ok _ _ Iq) as [[b A'] B'].
  exists (- wrap_shift (nr s) p), (- wrap_shift (nc s) q), e. rewrite !opp_IZR.
  split; [lra|]. split; [lra|]. split; [lia|]. split; [lia|]. split; [auto|]. rewrite A, A'.
  replace (- (p + nr s * a)) with (- p + nr s * - a) by ring. replace (- (q + nc s * b)) with (- q + nc s * - b) by ring.
  apply circular_mod; auto.
Qed.

(** Grid of the refinement: two points of it are less than [pad] apart. *)
Lemma grid_span u pad a b : (0 < u)%R -> let g := Zceil (u * pad) in 0 <= a < g -> 0 <= b < g ->
  (Rabs (IZR (a - b) / u) < pad)%R.
Proof.
  intros Hu g Ha Hb. pose proof (Zceil_lb (u * pad)) as C. fold g in C.
  assert (D : (Rabs (IZR (a - b)) <= IZR g - 1)%R). { rewrite <- abs_IZR, <- minus_IZR. apply IZR_le. lia. }
  unfold Rdiv. rewrite Rabs_mult, (Rabs_right (/ u)) by (apply Rle_ge, Rlt_le, Rinv_0_lt_compat; auto).
  apply (Rmult_lt_reg_r u); auto. rewrite Rmult_assoc, Rinv_l by lra. lra.
Qed.
Lemma multiple_small n k x : 0 < n -> x = (IZR n * IZR k)%R -> (Rabs x < IZR n)%R -> x = 0%R.
Proof.
  intros Hn -> H. rewrite <- mult_IZR, <- abs_IZR in H. apply lt_IZR in H. assert (k = 0) by nia. subst k. ring.
Qed.
(** Refinement finds a (possibly fractional) shift that lies on the refined grid. *)
Lemma psffit_fractional shift s t cfg k c dy dx ry rx amp : psffit shift s t cfg = Ok ((ry, rx), amp) ->
  read_config cfg = Ok k -> let u := upsample_factor k in let pad := pad_factor k in
  (0 < u)%R -> u <> 1%R -> c <> 0%R -> varies s -> 2 <= nr s -> 2 <= nc s ->
  (pad <= IZR (nr s))%R -> (pad <= IZR (nc s))%R -> fourier_shift s c dy dx t ->
  forall p q, first_max (fun p q => Rabs (cross_corr s t p q)) (nr s) (nc s) p q ->
  (exists a, 0 <= a < Zceil (u * pad) /\ (- dy = IZR (ZnearestE (IZR (wrap_shift (nr s) p) * u)) / u + IZR (a - Zceil (u * pad) / 2) / u)%R) ->
  (exists b, 0 <= b < Zceil (u * pad) /\ (- dx = IZR (ZnearestE (IZR (wrap_shift (nc s) q) * u)) / u + IZR (b - Zceil (u * pad) / 2) / u)%R) ->
  ry = dy /\ rx = dx.
Proof.
  intros H Hk u pad Hu Nu Hc Hv N2 M2 Pn Pm F p q M (a & Ha & Ea) (b & Hb & Eb).
  apply psffit_inv in H as (k' & Ek & E1 & E2 & P & _). rewrite Hk in Ek. injection Ek as <-.
  apply peak_ok in P as (Hn & Hm & p' & q' & M' & _ & P2); auto.
  assert (PQ : p' = p /\ q' = q).
  { destruct M as (I1 & I2 & L1 & S1), M' as (I1' & I2' & L1' & S1').
    assert (D : forall i j i' j' : Z, before i j i' j' \/ before i' j' i j \/ (i = i' /\ j = j')) by (unfold before; lia).
    destruct (D p' q' p q) as [B|[B|B]]; auto; exfalso.
    - pose proof (S1 p' q' I1' I2' B). pose proof (L1' p q I1 I2). lra.
    - pose proof (S1' p q I1 I2 B). pose proof (L1 p' q' I1' I2'). lra. }
  destruct PQ as [-> ->]. destruct (P2 Nu) as (_ & a' & b' & Mx & Y & X). clear P2. fold u pad in Mx, Y, X.
  set (g := Zceil (u * pad)) in *. destruct Mx as (Ia & Ib & Mx & _). specialize (Mx a b Ha Hb). rewrite <- Ea, <- Eb, <- Y, <- X in Mx.
  pose proof (trig_at s t c _ _ F Hn Hm) as A. pose proof (trig_le s t c _ _ F Hn Hm (- ry)%R (- rx)%R) as L.
  destruct (trig_strict s t c _ _ F Hn Hm (- ry) (- rx) Hc Hv) as [Q1 Q2]; [apply Rle_antisym; [exact L|]; rewrite <- A; exact Mx|].
  destruct Q1 as [k1 K1]. destruct Q2 as [k2 K2].
  pose proof (grid_span u pad a' a Hu Ia Ha) as G1. pose proof (grid_span u pad b' b Hu Ib Hb) as G2.
  assert (D1 : (- ry + dy = IZR (a' - a) / u)%R). { replace dy with (- - dy)%R by ring. rewrite Y, Ea, !minus_IZR. field. lra. }
  assert (D2 : (- rx + dx = IZR (b' - b) / u)%R). { replace dx with (- - dx)%R by ring. rewrite X, Eb, !minus_IZR. field. lra. }
  apply (multiple_small _ _ _ Hn) in K1; [|rewrite D1; lra]. apply (multiple_small _ _ _ Hm) in K2; [|rewrite D2; lra]. lra.
Qed.
Lemma ZnearestE_IZR z : ZnearestE (IZR z) = z.
Proof. apply Znearest_imp. rewrite Rminus_diag_eq, Rabs_R0 by auto. lra. Qed.
(** Whole-pixel circular shifts are found exactly. *)
Lemma psffit_exact shift s t cfg k c dy dx ry rx amp : psffit shift s t cfg = Ok ((ry, rx), amp) ->
  read_config cfg = Ok k -> (exists U, 0 < U /\ upsample_factor k = IZR U) ->
  c <> 0%R -> varies s -> 2 <= nr s -> 2 <= nc s ->
  (pad_factor k <= IZR (nr s))%R -> (pad_factor k <= IZR (nc s))%R -> circular_shift s c dy dx t ->
  exists y x, ry = IZR y /\ rx = IZR x /\ - nr s <= 2 * y < nr s /\ - nc s <= 2 * x < nc s /\
    (exists e, y = dy + nr s * e) /\ (exists e, x = dx + nc s * e).
Proof.
  intros H Hk (U & HU & EU) Hc Hv N2 M2 Pn Pm Sh. pose proof H as H0.
  apply psffit_inv in H0 as (k' & Ek & E1 & E2 & P & _). rewrite Hk in Ek. injection Ek as <-.
  apply peak_ok in P as (Hn & Hm & p & q & M & P1 & P2); auto.
  destruct (coarse_exact s t c dy dx p q Sh Hn Hm Hc M Hv) as [[e1 D1] [e2 D2]].
  destruct M as (Ip & Iq & M'). destruct (wrap_ok _ _ Ip) as [[a A] B]. destruct (wrap_ok _ _ Iq) as [[b A'] B'].
  exists (- wrap_shift (nr s) p), (- wrap_shift (nc s) q).
  assert (R1 : exists e, - wrap_shift (nr s) p = dy + nr s * e) by (exists (- e1 - a); rewrite A, D1; ring).
  assert (R2 : exists e, - wrap_shift (nc s) q = dx + nc s * e) by (exists (- e2 - b); rewrite A', D2; ring).
  assert (V : ry = IZR (- wrap_shift (nr s) p) /\ rx = IZR (- wrap_shift (nc s) q)).
  { destruct (Req_dec (upsample_factor k) 1) as [U1|U1].
    - destruct (P1 U1) as [Y X]. rewrite !opp_IZR. lra.
    - assert (Up : (0 < upsample_factor k)%R) by (rewrite EU; apply IZR_lt; auto).
      assert (G : 0 < Zceil (upsample_factor k * pad_factor k)).
      { destruct (P2 U1) as (_ & i & j & (I & _) & _). lia. }
      destruct R1 as [f1 F1], R2 as [f2 F2].
      assert (Rnd : forall z, (IZR (ZnearestE (IZR z * upsample_factor k)) / upsample_factor k = IZR z)%R).
      { intros z. rewrite EU, <- mult_IZR, ZnearestE_IZR, mult_IZR. field. apply not_0_IZR. lia. }
      assert (Mid : 0 <= Zceil (upsample_factor k * pad_factor k) / 2 < Zceil (upsample_factor k * pad_factor k)).
      { split; [apply Z.div_pos; lia|apply Z.div_lt; lia]. }
      apply (psffit_fractional shift s t cfg k c _ _ ry rx amp H Hk Up U1 Hc Hv N2 M2 Pn Pm) with (p := p) (q := q).
      + rewrite F1, F2. apply circular_fourier; auto. apply circular_mod; auto.
      + split; auto.
      + eexists. split; [exact Mid|]. rewrite Rnd, Z.sub_diag, opp_IZR. unfold Rdiv. ring.
      + eexists. split; [exact Mid|]. rewrite Rnd, Z.sub_diag, opp_IZR. unfold Rdiv. ring. }
  destruct V as [V1 V2]. split; [auto|]. split; [auto|]. split; [lia|]. split; [lia|]. auto.
Qed.
Lemma psffit_def shift s t cfg k : read_config cfg = Ok k -> nr t = nr s -> nc t = nc s -> 0 < nr s -> 0 < nc s ->
  (upsample_factor k = 1 \/ 0 < upsample_factor k * pad_factor k)%R -> exists r, psffit shift s t cfg = Ok r.
Proof.
  intros Hk E1 E2 Hn Hm HU. unfold psffit. rewrite Hk. cbn [bind]. rewrite guard_true by (apply same_shape_iff; auto).
  destruct (peak_def s t _ _ E1 E2 Hn Hm HU) as [r ->]. cbn [bind]. eauto.
Qed.

(** ** Amplitude *)
Lemma amax_ok a : 0 < nr a -> 0 < nc a -> is_max a (amax a).
Proof.
  intros Hn Hm. unfold amax, rmax_list.
  assert (G : forall l d, In (fold_right Rmax d l) (d :: l) /\ forall v, In v (d :: l) -> (v <= fold_right Rmax d l)%R).
  { induction l as [|x l IH]; intros d; cbn [fold_right].
    - split; [left; auto|]. intros v [<-|[]]. lra.
    - destruct (IH d) as [I L]. split.
      + destruct (Rle_lt_dec x (fold_right Rmax d l)); [rewrite Rmax_right by auto|rewrite Rmax_left by lra; right; left; auto].
        destruct I as [I|I]; [left; auto|right; right; auto].
      + intros v [<-|[<-|Hv]].
        * eapply Rle_trans; [apply (L d)|apply Rmax_r]. left; auto.
        * apply Rmax_l.
        * eapply Rle_trans; [apply (L v)|apply Rmax_r]. right; auto. }
  destruct (G (elements a) (at2 a 0 0)) as [I L]. split.
  - destruct I as [I|I]; [exists 0, 0; split; [split; lia|auto]|]. apply in_elements in I as (i & j & H & I). eauto.
  - intros i j H. apply L. right. apply in_elements. eauto.
Qed.
Lemma is_max_unique a v v' : is_max a v -> is_max a v' -> v = v'.
Proof.
  intros [(i & j & I & <-) M] [(i' & j' & I' & <-) M']. apply Rle_antisym; auto.
Qed.
Lemma dot_map {P} (f g : P -> R) l : dot (map f l) (map g l) = lsum (fun p => f p * g p)%R l.
Proof.
  unfold dot. induction l as [|x l IH]; [reflexivity|]. cbn [map List.combine fold_right lsum fst snd]. rewrite IH. reflexivity.
Qed.
Lemma lsum_filter {P} (f : P -> R) (b : P -> bool) l : lsum f (filter b l) = lsum (fun p => if b p then f p else 0)%R l.
Proof. induction l as [|x l IH]; cbn; auto. destruct (b x); cbn; rewrite IH; ring. Qed.
Lemma dot_select m (a b : arr R) n k : nr a = n -> nr b = n -> nc a = k -> nc b = k ->
  dot (select m a) (select m b) = rsum2 (fun i j => if at2 m i j then at2 a i j * at2 b i j else 0)%R n k.
Proof.
  intros <- E2 <- E4. unfold select. rewrite E2, E4, dot_map, lsum_filter.
  exact (lsum_indices (nr a) (nc a) (fun i j => if at2 m i j then (at2 a i j * at2 b i j)%R else 0%R)).
Qed.
Section Amp.
Variables (t g : arr R) (thresh M : R).
Hypotheses (Hn : 0 < nr t) (Hm : 0 < nc t) (E1 : nr g = nr t) (E2 : nc g = nc t) (HM : is_max t M).
Let cut := (thresh * M)%R.
Let gg := rsum2 (fun i j => if Rlt_dec cut (at2 t i j) then at2 g i j * at2 g i j else 0)%R (nr t) (nc t).
Let gt := rsum2 (fun i j => if Rlt_dec cut (at2 t i j) then at2 g i j * at2 t i j else 0)%R (nr t) (nc t).
Lemma amp_eq : amplitude_ratio t g thresh = if Req_EM_T gg 0 then None else Some (gt / gg)%R.
Proof.
  unfold amplitude_ratio. rewrite (is_max_unique t _ M (amax_ok t Hn Hm) HM). fold cut.
  rewrite !(dot_select _ _ _ (nr t) (nc t)) by auto. cbn [at2 amap].
  assert (Q : forall h : Z -> Z -> R, rsum2 (fun i j => if (if Rlt_dec cut (at2 t i j) then true else false) then h i j else 0)%R (nr t) (nc t)
      = rsum2 (fun i j => if Rlt_dec cut (at2 t i j) then h i j else 0)%R (nr t) (nc t)).
  { intros h. apply rsum2_ext. intros. destruct (Rlt_dec cut (at2 t i j)); auto. }
  rewrite !Q. reflexivity.
Qed.
Lemma gg_zero : gg = 0%R <-> forall i j, in_arr t i j -> above cut t i j -> at2 g i j = 0%R.
Proof.
  unfold above. split.
  - intros H i j [Hi Hj] A. unfold gg in H. eapply rsum2_nonneg_zero in H; [|intros; cbn; destruct (Rlt_dec _ _); [nra|lra]|exact Hi|exact Hj].
    cbn in H. destruct (Rlt_dec cut (at2 t i j)); [nra|contradiction].
  - intros H. apply rsum2_all_zero. intros i j Hi Hj. destruct (Rlt_dec cut (at2 t i j)); auto. rewrite H by (auto; split; auto). ring.
Qed.
Lemma residual_expand c : residual cut t g c =
  (residual cut t g 0 - 2 * c * gt + c * c * gg)%R.
Proof.
  unfold residual, gt, gg. rewrite <- !rsum2_scal, <- rsum2_sub, <- rsum2_add. apply rsum2_ext. intros.
  destruct (Rlt_dec cut (at2 t i j)); ring.
Qed.
Lemma amp_optimal A : amplitude_ratio t g thresh = Some A -> forall c, c <> A -> (residual cut t g A < residual cut t g c)%R.
Proof.
  rewrite amp_eq. destruct (Req_EM_T gg 0) as [|Ng]; [discriminate|]. intros [= <-] c Hc.
  rewrite (residual_expand c), (residual_expand (gt / gg)).
  assert (P : (0 < gg)%R).
  { destruct (Rle_lt_or_eq_dec 0 gg) as [|Q]; auto; [|congruence]. apply rsum2_nonneg. intros. destruct (Rlt_dec _ _); [nra|lra]. }
  assert (Q : (0 < gg * ((c - gt / gg) * (c - gt / gg)))%R).
  { apply Rmult_lt_0_compat; auto. apply Rlt_0_sqr. lra. }
  replace (gt / gg * (gt / gg) * gg)%R with (gt / gg * gt)%R by (field; auto).
  assert (Q2 : (gg * ((c - gt / gg) * (c - gt / gg)) = c * c * gg - 2 * c * gt + gt / gg * gt)%R) by (field; auto).
  lra.
Qed.
Lemma amp_none : amplitude_ratio t g thresh = None <-> forall i j, in_arr t i j -> above cut t i j -> at2 g i j = 0%R.
Proof.
  rewrite <- gg_zero, amp_eq. destruct (Req_EM_T gg 0); split; auto; try congruence; intros; contradiction.
Qed.
Lemma amp_proportional c : (forall i j, in_arr t i j -> above cut t i j -> at2 t i j = (c * at2 g i j)%R) ->
  (exists i j, in_arr t i j /\ above cut t i j /\ at2 g i j <> 0%R) -> amplitude_ratio t g thresh = Some c.
Proof.
  intros Hc (i0 & j0 & I & A & N). rewrite amp_eq. destruct (Req_EM_T gg 0) as [Z0|Ng].
  - exfalso. apply N. apply gg_zero; auto.
  - f_equal. assert (Q : gt = (c * gg)%R).
    { unfold gt, gg. rewrite <- rsum2_scal. apply rsum2_ext. intros i j Hi Hj. destruct (Rlt_dec cut (at2 t i j)) as [L|L]; [|ring].
      rewrite (Hc i j) by (auto; split; auto). ring. }
    rewrite Q. field. auto.
Qed.
End Amp.
Lemma fill_circular s c dy dx t : 0 < nr s -> 0 < nc s -> zero_fill_shift s c dy dx t -> stays_in_frame s dy dx -> circular_shift s c dy dx t.
Proof.
  intros Hn Hm (E1 & E2 & V) Fr. split; [auto|]. split; [auto|]. intros i j H. rewrite V by auto. f_equal.
  destruct H as [Hi Hj]. rewrite E1 in Hi. rewrite E2 in Hj.
  destruct (in_arrb s (i - dy) (j - dx)) eqn:B.
  - apply in_arrb_spec in B as [B1 B2]. rewrite !Z.mod_small by auto. reflexivity.
  - apply in_arrb_false in B. symmetry. apply Fr; [split; apply Z.mod_pos_bound; auto|]. intros [B1 B2]. apply B.
    assert (Q : forall n a d, 0 < n -> 0 <= a < n -> 0 <= (a - d) mod n + d < n -> 0 <= a - d < n).
    { intros N a d HN Ha Hd. pose proof (Z.div_mod (a - d) N ltac:(lia)). pose proof (Z.mod_pos_bound (a - d) N HN).
      set (z := (a - d) / N) in *. assert (z = 0) by nia. subst z. nia. }
    split; [apply Q|apply Q]; auto.
Qed.
Lemma psffit_recovers shift s t cfg k c dy dx : whole_shift shift -> read_config cfg = Ok k ->
  (exists U, 0 < U /\ upsample_factor k = IZR U) -> (0 < pad_factor k <= IZR (nr s))%R -> (pad_factor k <= IZR (nc s))%R ->
  (0 <= amp_thresh k < 1)%R -> (0 < c)%R -> varies s -> 2 <= nr s -> 2 <= nc s ->
  - nr s <= 2 * dy < nr s -> - nc s <= 2 * dx < nc s ->
  zero_fill_shift s c dy dx t -> stays_in_frame s dy dx -> (exists i j, in_arr t i j /\ (0 < at2 t i j)%R) ->
  psffit shift s t cfg = Ok ((IZR dy, IZR dx), Some c).
Proof.
  intros Hw Hk HU Hp Hp' Ht Hc Hv N2 M2 By Bx Sh Fr Pos.
  pose proof (fill_circular s c dy dx t ltac:(lia) ltac:(lia) Sh Fr) as Ci. destruct Sh as (E1 & E2 & V).
  destruct (psffit_def shift s t cfg k Hk E1 E2 ltac:(lia) ltac:(lia)) as [[[ry rx] amp] H].
  { right. destruct HU as (U & HU & ->). apply Rmult_lt_0_compat; [apply IZR_lt; auto|lra]. }
  destruct (psffit_exact shift s t cfg k c dy dx ry rx amp H Hk HU ltac:(lra) Hv N2 M2 ltac:(lra) Hp' Ci)
    as (y & x & -> & -> & By' & Bx' & [e1 F1] & [e2 F2]).
  assert (Q : y = dy /\ x = dx).
  { assert (G : forall N d z e, 0 < N -> - N <= 2 * d < N -> - N <= 2 * z < N -> z = d + N * e -> z = d).
    { intros N d z e HN Hd Hz ->. assert (e = 0) by nia. subst e. ring. }
    split; [apply (G (nr s) dy y e1)|apply (G (nc s) dx x e2)]; auto; lia. }
  destruct Q as [-> ->]. rewrite H. do 2 f_equal. apply psffit_inv in H as (k' & Ek & _ & _ & _ & ->). rewrite Hk in Ek. injection Ek as <-.
  destruct (Hw s dy dx) as (W1 & W2 & W3). pose proof (amax_ok t ltac:(lia) ltac:(lia)) as MM.
  assert (Hg : forall i j, in_arr t i j -> at2 t i j = (c * at2 (shift s (IZR dy) (IZR dx)) i j)%R).
  { intros i j I. rewrite V, W3 by (auto; destruct I; split; lia). reflexivity. }
  apply (amp_proportional t (shift s (IZR dy) (IZR dx)) _ _ ltac:(lia) ltac:(lia) ltac:(lia) ltac:(lia) MM); [auto|].
  destruct MM as [(i & j & I & Em) Mx]. exists i, j. split; [auto|].
  assert (MP : (0 < at2 t i j)%R). { destruct Pos as (i' & j' & I' & P'). rewrite Em. eapply Rlt_le_trans; [exact P'|auto]. }
  split; [unfold above; rewrite <- Em; nra|]. intros Z0. rewrite Hg, Z0 in MP by auto. lra.
Qed.

(** ** The configuration *)
Lemma config_ok v k : read_config v = Ok k <-> exists d a b c, v = YDict d /\
  assoc "upsample_factor" d = Some a /\ assoc "pad_factor" d = Some b /\ assoc "amp_thresh" d = Some c /\
  number a = Some (upsample_factor k) /\ number b = Some (pad_factor k) /\ number c = Some (amp_thresh k).
Proof.
  split.
  - intros H. unfold read_config in H. inv_bind H. apply guard_ok in H as [B1 H]. inv_bind H. apply guard_ok in H as [B2 H].
    inv_bind H. apply guard_ok in H as [B3 H]. subst. destruct v as [| | | | |l|d]; try discriminate.
    inv_bind H. inv_bind H. inv_bind H. injection H as <-. unfold need_number, item in E2, E3, E4.
    destruct (assoc "upsample_factor" d) as [a|] eqn:A1; [|discriminate]. destruct (assoc "pad_factor" d) as [b|] eqn:A2; [|discriminate].
    destruct (assoc "amp_thresh" d) as [c|] eqn:A3; [|discriminate]. cbn [bind] in *.
    destruct (number a) eqn:N1; [|discriminate]. destruct (number b) eqn:N2; [|discriminate]. destruct (number c) eqn:N3; [|discriminate].
    injection E2 as <-. injection E3 as <-. injection E4 as <-. exists d, a, b, c. cbn. auto 10.
  - intros (d & a & b & c & -> & A1 & A2 & A3 & N1 & N2 & N3). unfold read_config, has_key, need_number, item.
    rewrite A1, A2, A3. cbn [bind guard]. rewrite N1, N2, N3. cbn [bind]. destruct k; reflexivity.
Qed.

(** ** Statements in terms of lags *)
Lemma lag_unique n p y : 0 <= p < n -> lag n p y -> y = wrap_shift n p.
Proof.
  intros Hp [[k ->] B]. destruct (wrap_ok n p Hp) as [[k' E] B']. rewrite E in *. assert (k = k') by nia. subst. ring.
Qed.
Lemma psffit_peak shift s t cfg k ry rx amp : psffit shift s t cfg = Ok ((ry, rx), amp) -> read_config cfg = Ok k ->
  let u := upsample_factor k in let g := Zceil (u * pad_factor k) in
  nr t = nr s /\ nc t = nc s /\ exists p q y0 x0,
  first_max (fun p q => Rabs (cross_corr s t p q)) (nr s) (nc s) p q /\ lag (nr s) p y0 /\ lag (nc s) q x0 /\
  (u = 1%R -> ry = - IZR y0 /\ rx = - IZR x0)%R /\
  (u <> 1%R -> exists a b,
     first_max (fun a b => Cmod (trig_corr s t (IZR (ZnearestE (IZR y0 * u)) / u + IZR (a - g / 2) / u)
                                               (IZR (ZnearestE (IZR x0 * u)) / u + IZR (b - g / 2) / u))) g g a b /\
     ry = - (IZR (ZnearestE (IZR y0 * u)) / u + IZR (a - g / 2) / u) /\
     rx = - (IZR (ZnearestE (IZR x0 * u)) / u + IZR (b - g / 2) / u))%R.
Proof.
  intros H Hk u g. apply psffit_inv in H as (k' & Ek & E1 & E2 & P & _). rewrite Hk in Ek. injection Ek as <-.
  split; [auto|]. split; [auto|]. apply peak_ok in P as (Hn & Hm & p & q & M & P1 & P2); auto.
  pose proof M as (Ip & Iq & _). exists p, q, (wrap_shift (nr s) p), (wrap_shift (nc s) q).
  split; [auto|]. split; [exact (wrap_ok _ _ Ip)|]. split; [exact (wrap_ok _ _ Iq)|]. split.
  - intros U. destruct (P1 U). lra.
  - intros U. destruct (P2 U) as (_ & a & b & Mx & Y & X). exists a, b. split; [exact Mx|].
    fold u g in Y, X. rewrite <- Y, <- X. lra.
Qed.
Lemma grid_point u pad U d y : (0 < u)%R -> u = IZR U -> (exists D, d = IZR D / u)%R -> (2 * Rabs (d + IZR y) * u + 1 <= u * pad)%R ->
  exists a, 0 <= a < Zceil (u * pad) /\ (- d = IZR (ZnearestE (IZR y * u)) / u + IZR (a - Zceil (u * pad) / 2) / u)%R.
Proof.
  intros Hu EU [D ED] B. set (g := Zceil (u * pad)).
  exists (- D - y * U + g / 2).
  assert (Q : 2 * Z.abs (D + y * U) + 1 <= g).
  { apply le_IZR. apply Rle_trans with (u * pad)%R; [|apply Zceil_ub]. rewrite plus_IZR, mult_IZR, abs_IZR, plus_IZR, mult_IZR, <- EU.
    eapply Rle_trans; [|exact B]. apply Req_le. f_equal. rewrite Rmult_assoc. f_equal.
    rewrite <- (Rabs_right u) at 2 by lra. rewrite <- Rabs_mult. f_equal. rewrite ED. field. lra. }
  pose proof (Z.div_mod g 2). pose proof (Z.mod_pos_bound g 2). split; [lia|].
  replace (- D - y * U + g / 2 - g / 2) with (- D - y * U) by ring.
  rewrite EU, <- mult_IZR, ZnearestE_IZR, minus_IZR, opp_IZR, mult_IZR, <- EU, ED. field. lra.
Qed.
Lemma psffit_subpixel shift s t cfg k U c dy dx ry rx amp p q y0 x0 : psffit shift s t cfg = Ok ((ry, rx), amp) ->
  read_config cfg = Ok k -> 1 < U -> upsample_factor k = IZR U -> c <> 0%R -> varies s -> 2 <= nr s -> 2 <= nc s ->
  (pad_factor k <= IZR (nr s))%R -> (pad_factor k <= IZR (nc s))%R -> fourier_shift s c dy dx t ->
  first_max (fun p q => Rabs (cross_corr s t p q)) (nr s) (nc s) p q -> lag (nr s) p y0 -> lag (nc s) q x0 ->
  (exists D, dy = IZR D / IZR U)%R -> (exists D, dx = IZR D / IZR U)%R ->
  (2 * Rabs (dy + IZR y0) * IZR U + 1 <= IZR U * pad_factor k)%R -> (2 * Rabs (dx + IZR x0) * IZR U + 1 <= IZR U * pad_factor k)%R ->
  ry = dy /\ rx = dx.
Proof.
  intros H Hk HU EU Hc Hv N2 M2 Pn Pm F M L1 L2 D1 D2 B1 B2. pose proof M as (Ip & Iq & _).
  apply lag_unique in L1, L2; auto. subst y0 x0. rewrite <- EU in *.
  assert (Up : (0 < upsample_factor k)%R) by (rewrite EU; apply IZR_lt; lia).
  assert (U1 : upsample_factor k <> 1%R) by (rewrite EU; intros E; apply eq_IZR in E; lia).
  apply (psffit_fractional shift s t cfg k c dy dx ry rx amp H Hk Up U1 Hc Hv N2 M2 Pn Pm F p q M); eapply grid_point; eauto.
Qed.
