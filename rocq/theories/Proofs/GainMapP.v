(** Proofs about gain maps. *)
From Coq Require Import ZArith Bool List Reals Lra Lia Sorted Permutation.
From Coquelicot Require Rcomplements.
From Verif.Base Require Import Py Arr.
From Verif.Model Require Import Fits GainMap.
From Verif.Spec Require Import GainMapSpec.
From Verif.Proofs Require Import FitsP.
Import ListNotations.
Open Scope Z_scope.

(** ** Sorting *)
Lemma insert_perm x l : Permutation (x :: l) (insert x l).
Proof.
  induction l as [|y l IH]; cbn; [reflexivity|]. destruct (Rleb x y); [reflexivity|].
  rewrite perm_swap. constructor. auto.
Qed.
Lemma npsort_perm l : Permutation l (npsort l).
Proof. induction l as [|x l IH]; cbn; [constructor|]. rewrite <- insert_perm. constructor. auto. Qed.
Lemma insert_sorted x l : StronglySorted Rle l -> StronglySorted Rle (insert x l).
Proof.
  induction 1 as [|y l S IH F]; cbn; [repeat constructor|]. destruct (Rleb x y) eqn:B.
  - apply Rleb_iff in B. constructor; [constructor; auto|]. constructor; auto.
    eapply Forall_impl; [|exact F]. cbn. intros; lra.
  - apply Rleb_false in B. constructor; auto. apply (Permutation_Forall (insert_perm x l)). constructor; auto. lra.
Qed.
Lemma npsort_sorted l : StronglySorted Rle (npsort l).
Proof. induction l; cbn; [constructor|]. apply insert_sorted. auto. Qed.
Lemma npsort_id l : StronglySorted Rle l -> npsort l = l.
Proof.
  induction 1 as [|x l S IH F]; cbn; auto. rewrite IH. destruct l as [|y l]; auto. cbn.
  inversion F; subst. rewrite (proj2 (Rleb_iff x y)) by auto. reflexivity.
Qed.
Lemma length_npsort l : length (npsort l) = length l.
Proof. symmetry. apply Permutation_length, npsort_perm. Qed.
Lemma runs_le l : (length (runs l) <= length l)%nat.
Proof.
  induction l as [|x l IH]; [auto|]. destruct l as [|y l']; [auto|].
  change (length (if Req_EM_T x y then runs (y :: l') else x :: runs (y :: l')) <= S (length (y :: l')))%nat.
  destruct (Req_EM_T x y); cbn [length] in *; lia.
Qed.
Lemma runs_len l : StronglySorted Rle l -> (length (runs l) = length l <-> NoDup l).
Proof.
  induction 1 as [|x l Ss IH F]; [split; [constructor|auto]|]. destruct l as [|y l'].
  - split; auto. intros _. constructor; [auto|constructor].
  - change (length (if Req_EM_T x y then runs (y :: l') else x :: runs (y :: l')) = S (length (y :: l')) <-> NoDup (x :: y :: l')).
    destruct (Req_EM_T x y) as [->|N].
    + pose proof (runs_le (y :: l')). split; [lia|]. intros D. inversion D. exfalso. apply H2. left. auto.
    + cbn [length]. split.
      * intros L. constructor; [|apply IH; cbn [length]; lia].
        intros [E|I]; [congruence|]. inversion Ss as [|? ? S' F']; subst. inversion F; subst.
        apply (Forall_forall (Rle y) l') in I; auto. lra.
      * intros D. inversion D; subst. f_equal. apply IH. auto.
Qed.
Lemma unique_ok v : Nat.eqb (length v) (length (npunique v)) = true <-> NoDup v.
Proof.
  rewrite Nat.eqb_eq. unfold npunique. rewrite <- (length_npsort v) at 1.
  pose proof (runs_len _ (npsort_sorted v)) as R.
  split.
  - intros E. symmetry in E. apply R in E. eapply Permutation_NoDup; [symmetry; apply npsort_perm|auto].
  - intros D. symmetry. apply R. eapply Permutation_NoDup; [apply npsort_perm|auto].
Qed.
Lemma verify_unique_spec v : (verify_unique v = Ok tt <-> NoDup v) /\ (~ NoDup v -> verify_unique v = Err ValueError).
Proof.
  unfold verify_unique. rewrite <- unique_ok. destruct (Nat.eqb _ _); cbn; split; auto; intuition congruence.
Qed.

(** ** Presortedness *)
Lemma rtol_pos : (0 < rtol_default)%R. Proof. unfold rtol_default. lra. Qed.
Lemma eps_pos : (0 < eps)%R. Proof. unfold eps. apply Rinv_0_lt_compat. apply pow_lt. lra. Qed.
Lemma allclose_refl v : allclose rtol_default eps v v = true.
Proof.
  unfold allclose. apply forallb_forall. intros [a b] I.
  assert (a = b) as ->.
  { revert I. induction v; cbn; [tauto|]. intros [[= <- <-]|I]; auto. }
  unfold close. apply Rleb_iff. cbn. replace (b - b)%R with 0%R by ring. rewrite Rabs_R0.
  pose proof rtol_pos. pose proof eps_pos. pose proof (Rabs_pos b). nra.
Qed.
Lemma presorted_complete v : nondecreasing v -> verify_presorted v = Ok tt.
Proof. intros S. unfold verify_presorted. rewrite npsort_id by auto. rewrite allclose_refl. reflexivity. Qed.
Lemma nth_sorted l : StronglySorted Rle l -> forall i j, (i <= j < length l)%nat -> (nth i l 0 <= nth j l 0)%R.
Proof.
  induction 1 as [|x l S IH F]; intros i j H; cbn in H; [lia|]. destruct i, j; cbn; try lra; try lia.
  - apply (Forall_forall (Rle x) l); auto. apply nth_In. lia.
  - apply IH. lia.
Qed.
Lemma nth_ascending l : StronglySorted Rlt l -> forall i j, (i < j < length l)%nat -> (nth i l 0 < nth j l 0)%R.
Proof.
  induction 1 as [|x l S IH F]; intros i j H; cbn in H; [lia|]. destruct i, j; cbn; try lra; try lia.
  - apply (Forall_forall (Rlt x) l); auto. apply nth_In. lia.
  - apply IH. lia.
Qed.
Lemma presorted_sound v M : verify_presorted v = Ok tt -> (forall x, In x v -> (Rabs x <= M)%R) ->
  forall i j, 0 <= i < j -> j < len v -> (nthR v i - nthR v j <= 2 * (eps + rtol_default * M))%R.
Proof.
  intros H HM i j Hi Hj. unfold verify_presorted in H. destruct (allclose rtol_default eps v (npsort v)) eqn:A; [|discriminate].
  unfold allclose in A. rewrite forallb_forall in A.
  assert (K : forall k, 0 <= k < len v -> (Rabs (nthR v k - nth (Z.to_nat k) (npsort v) 0) <= eps + rtol_default * M)%R).
  { intros k Hk. unfold len in Hk. assert (Lk : (Z.to_nat k < length v)%nat) by lia.
    assert (I : In (nthR v k, nth (Z.to_nat k) (npsort v) 0%R) (combine v (npsort v))).
    { unfold nthR. rewrite <- combine_nth by (rewrite length_npsort; auto). apply nth_In. rewrite combine_length, length_npsort. lia. }
    apply A in I. unfold close in I. apply Rleb_iff in I. cbn [fst snd] in I.
    assert (Rabs (nth (Z.to_nat k) (npsort v) 0) <= M)%R.
    { apply HM. eapply Permutation_in; [symmetry; apply npsort_perm|]. apply nth_In. rewrite length_npsort. lia. }
    pose proof rtol_pos. nra. }
  pose proof (K i ltac:(lia)) as Ki. pose proof (K j ltac:(lia)) as Kj.
  apply Rcomplements.Rabs_le_between in Ki. apply Rcomplements.Rabs_le_between in Kj.
  pose proof (nth_sorted _ (npsort_sorted v) (Z.to_nat i) (Z.to_nat j)) as S. unfold len in Hj. rewrite length_npsort in S. specialize (S ltac:(lia)). lra.
Qed.
Definition bad_vec : list R := [100 + / 2000; 100]%R.
Lemma bad_vec_accepted : NoDup bad_vec /\ verify_unique bad_vec = Ok tt /\ verify_presorted bad_vec = Ok tt /\ ~ nondecreasing bad_vec /\
  exists dm, diff_and_mean (F1 bad_vec) = Ok dm /\ (nthR (fst dm) 0 < 0)%R.
Proof.
  assert (D : NoDup bad_vec).
  { unfold bad_vec. constructor; [intros [E|[]]; lra|]. constructor; [intros []|constructor]. }
  assert (U : verify_unique bad_vec = Ok tt) by (apply verify_unique_spec; auto).
  assert (S : npsort bad_vec = [100; 100 + / 2000]%R).
  { unfold bad_vec. cbn [npsort insert]. rewrite (proj2 (Rleb_false (100 + / 2000) 100)) by lra. reflexivity. }
  assert (P : verify_presorted bad_vec = Ok tt).
  { unfold verify_presorted. rewrite S. unfold bad_vec, allclose. cbn [combine forallb fst snd]. unfold close.
    pose proof eps_pos. unfold rtol_default.
    rewrite !(proj2 (Rleb_iff _ _)); [reflexivity| |].
    - rewrite (Rabs_left (100 - (100 + / 2000))) by lra. rewrite Rabs_right by lra. lra.
    - rewrite (Rabs_right (100 + / 2000 - 100)) by lra. rewrite Rabs_right by lra. lra. }
  split; [auto|]. split; [auto|]. split; [auto|]. split.
  - intros N. inversion N as [|? ? _ F]. inversion F; subst. lra.
  - unfold diff_and_mean. cbn [as_vector bind]. rewrite U, P. cbn [bind]. rewrite (proj2 (Z.leb_le 0 (len bad_vec - 1))) by (cbn; lia). cbn [guard bind].
    eexists. split; [reflexivity|].
    change (100 - (100 + / 2000) < 0)%R. lra.
Qed.
Lemma ascending_le v : ascending v -> nondecreasing v.
Proof.
  induction 1 as [|x l S IH F]; constructor; auto. eapply Forall_impl; [|exact F]. cbn. intros; lra.
Qed.
Lemma ascending_nodup v : ascending v -> NoDup v.
Proof.
  induction 1 as [|x l S IH F]; constructor; auto. intros I. apply (Forall_forall (Rlt x) l) in I; auto. lra.
Qed.
Lemma ascending_nth v k l : ascending v -> 0 <= k < l -> l < len v -> (nthR v k < nthR v l)%R.
Proof. intros S H1 H2. unfold nthR, len in *. apply nth_ascending; auto. lia. Qed.
Lemma nth_zrange {A} (f : Z -> A) n k d : 0 <= k < n -> nth (Z.to_nat k) (map f (zrange n)) d = f k.
Proof.
  intros H. unfold zrange. rewrite map_map. rewrite (nth_indep _ d (f (Z.of_nat 0))) by (rewrite map_length, seq_length; lia).
  rewrite (map_nth (fun x => f (Z.of_nat x))). rewrite seq_nth by lia. f_equal. lia.
Qed.
Lemma len_zrange {A} (f : Z -> A) n : 0 <= n -> Z.of_nat (length (map f (zrange n))) = n.
Proof. intros. rewrite map_length. apply length_zrange. auto. Qed.
Lemma len_map_zrange f n : len (map f (zrange n)) = Z.max 0 n.
Proof. unfold len, zrange. rewrite !map_length, seq_length. lia. Qed.
Lemma diff_mean_ok v : ascending v -> 0 < len v -> exists dm, diff_and_mean (F1 v) = Ok dm /\
  len (fst dm) = Z.max 0 (len v - 1) /\ len (snd dm) = Z.max 0 (len v - 1) /\
  forall k, 0 <= k < len v - 1 -> nthR (fst dm) k = (nthR v (k + 1) - nthR v k)%R /\ (0 < nthR (fst dm) k)%R /\
    nthR (snd dm) k = ((nthR v k + nthR v (k + 1)) / 2)%R /\ (nthR v k < nthR (snd dm) k < nthR v (k + 1))%R.
Proof.
  intros S P0. unfold diff_and_mean. cbn [as_vector bind].
  rewrite (proj2 (proj1 (verify_unique_spec v))) by (apply ascending_nodup; auto). cbn [bind].
  rewrite presorted_complete by (apply ascending_le; auto). cbn [bind].
  rewrite (proj2 (Z.leb_le 0 (len v - 1))) by lia. cbn [guard bind]. eexists. split; [reflexivity|]. cbn [fst snd].
  split; [apply len_map_zrange|]. split; [apply len_map_zrange|]. intros k Hk.
  assert (E : forall f, nthR (map f (zrange (len v - 1))) k = f k) by (intros f; apply nth_zrange; auto). rewrite !E.
  pose proof (ascending_nth v k (k + 1) S ltac:(lia) ltac:(lia)). repeat split; lra.
Qed.

(** ** Loops *)
Lemma in_col_major n m i j : In (i, j) (col_major n m) <-> 0 <= i < n /\ 0 <= j < m.
Proof.
  unfold col_major. rewrite in_flat_map. split.
  - intros (j' & Hj & I). apply in_map_iff in I as (i' & [= <- <-] & Hi). rewrite in_zrange in Hi, Hj. auto.
  - intros [Hi Hj]. exists j. split; [apply in_zrange; auto|]. apply in_map_iff. exists i. split; auto. apply in_zrange. auto.
Qed.
Lemma first_err_none {A} (f : Z -> Z -> res A) l : first_err l f = None <-> forall i j, In (i, j) l -> is_ok (f i j).
Proof.
  induction l as [|[i j] l IH]; cbn; [tauto|]. destruct (f i j) eqn:E.
  - rewrite IH. split; intros H i' j'; [intros [[= <- <-]|I]; [rewrite E; eexists; reflexivity|auto]|auto].
  - split; [discriminate|]. intros H. specialize (H i j (or_introl eq_refl)). rewrite E in H. destruct H; discriminate.
Qed.
Lemma first_err_some {A} (f : Z -> Z -> res A) l e : first_err l f = Some e -> exists i j, In (i, j) l /\ f i j = Err e.
Proof.
  induction l as [|[i j] l IH]; cbn; [discriminate|]. destruct (f i j) eqn:E.
  - intros H. destruct (IH H) as (i' & j' & I & F). eauto 6.
  - intros [= <-]. eauto 6.
Qed.
Lemma fill2_ok {A} (d : A) n m f g : (forall i j, 0 <= i < n -> 0 <= j < m -> f i j = Ok (g i j)) ->
  exists a, fill2 d n m f = Ok a /\ nr a = n /\ nc a = m /\ forall i j, 0 <= i < n -> 0 <= j < m -> at2 a i j = g i j.
Proof.
  intros H. unfold fill2.
  rewrite (proj2 (first_err_none f (col_major n m))).
  - eexists. split; [reflexivity|]. cbn. split; [auto|]. split; [auto|]. intros i j Hi Hj. rewrite H by auto. reflexivity.
  - intros i j I. apply in_col_major in I as [Hi Hj]. rewrite H by auto. eexists; reflexivity.
Qed.
Lemma fill2_inv {A} (d : A) n m f a : fill2 d n m f = Ok a -> nr a = n /\ nc a = m /\
  forall i j, 0 <= i < n -> 0 <= j < m -> f i j = Ok (at2 a i j).
Proof.
  unfold fill2. destruct (first_err (col_major n m) f) eqn:E; [discriminate|]. intros [= <-]. cbn. split; [auto|]. split; [auto|].
  intros i j Hi Hj. rewrite first_err_none in E. specialize (E i j (proj2 (in_col_major n m i j) (conj Hi Hj))).
  destruct E as [x E]. rewrite E. reflexivity.
Qed.
Lemma fill2_err {A} (d : A) n m f i j e : 0 <= i < n -> 0 <= j < m -> f i j = Err e ->
  exists e', fill2 d n m f = Err e'.
Proof.
  intros Hi Hj E. unfold fill2. destruct (first_err (col_major n m) f) eqn:F; [eauto|].
  rewrite first_err_none in F. specialize (F i j (proj2 (in_col_major n m i j) (conj Hi Hj))). rewrite E in F. destruct F; discriminate.
Qed.
Lemma profile_ok c i j : i < c_rows c -> j < c_cols c -> profile c i j = Ok (map (fun k => at3 c k i j) (zrange (c_n c))).
Proof. intros H1 H2. unfold profile. rewrite (proj2 (Z.ltb_lt _ _) H1), (proj2 (Z.ltb_lt _ _) H2). reflexivity. Qed.
Lemma profile_err c i j : c_rows c <= i \/ c_cols c <= j -> profile c i j = Err IndexError.
Proof.
  intros H. unfold profile. destruct (Z.ltb_spec i (c_rows c)); [|reflexivity]. destruct (Z.ltb_spec j (c_cols c)); [|reflexivity]. lia.
Qed.
(** A loop over an n-by-m map that reads column (i, j) of a cube with m rows and n columns fails unless n = m. *)
Lemma fill2_nonsquare {A} (d : A) n m c (f : Z -> Z -> list R -> res A) : 0 < n -> 0 < m -> n <> m -> c_rows c = m -> c_cols c = n ->
  (forall i j h e, profile c i j = Ok h -> f i j h = Err e -> e = IndexError \/ e = ValueError) ->
  exists e, fill2 d n m (fun i j => do h <- profile c i j; f i j h) = Err e /\ (e = IndexError \/ e = ValueError).
Proof.
  intros Hn Hm N R C He.
  assert (X : exists i j, 0 <= i < n /\ 0 <= j < m /\ profile c i j = Err IndexError).
  { destruct (Z_lt_le_dec n m).
    - exists 0, n. split; [lia|]. split; [lia|]. apply profile_err. lia.
    - exists m, 0. split; [lia|]. split; [lia|]. apply profile_err. lia. }
  destruct X as (i & j & Hi & Hj & P).
  unfold fill2. destruct (first_err (col_major n m) _) as [e|] eqn:F.
  - exists e. split; auto. apply first_err_some in F as (i' & j' & _ & F). destruct (profile c i' j') eqn:P'; cbn [bind] in F.
    + eapply He; eauto.
    + unfold profile in P'. destruct ((i' <? c_rows c) && (j' <? c_cols c)); cbn in P'; [discriminate|]. left. congruence.
  - rewrite first_err_none in F. specialize (F i j (proj2 (in_col_major n m i j) (conj Hi Hj))). rewrite P in F. destruct F; discriminate.
Qed.

(** ** Linear interpolation *)
Lemma insert_pt_perm p l : Permutation (p :: l) (insert_pt p l).
Proof.
  induction l as [|q l IH]; cbn; [reflexivity|]. destruct (Rleb _ _); [reflexivity|]. rewrite perm_swap. constructor. auto.
Qed.
Lemma sort_pts_perm l : Permutation l (sort_pts l).
Proof. induction l as [|x l IH]; cbn; [constructor|]. rewrite <- insert_pt_perm. constructor. auto. Qed.
Lemma lin_interp_affine pts A B x : (2 <= length pts)%nat -> NoDup (map fst pts) -> (forall p, In p pts -> snd p = A * fst p + B)%R ->
  lin_interp pts x = Some (A * x + B)%R.
Proof.
  intros L D H. unfold lin_interp. pose proof (sort_pts_perm pts) as P. set (l := sort_pts pts) in *.
  assert (Ll : length l = length pts) by (symmetry; apply Permutation_length; auto).
  assert (Dl : NoDup (map fst l)) by (eapply Permutation_NoDup; [apply Permutation_map; exact P|auto]).
  destruct (length l) as [|[|n]] eqn:E; [lia|lia|]. rewrite <- E.
  set (hi := Nat.min (Nat.max (searchsorted l x) 1) (length l - 1)).
  assert (Hhi : (1 <= hi < length l)%nat) by (unfold hi; lia). set (lo := (hi - 1)%nat).
  assert (Hlo : (lo < length l)%nat) by (unfold lo; lia).
  assert (N : fst (nth hi l (0, 0)%R) <> fst (nth lo l (0, 0)%R)).
  { rewrite <- !(map_nth fst). intros K. rewrite NoDup_nth in Dl. rewrite map_length in Dl. apply Dl in K; unfold lo in *; lia. }
  rewrite (H (nth lo l (0, 0)%R)) by (eapply Permutation_in; [symmetry; exact P|apply nth_In; auto]).
  rewrite (H (nth hi l (0, 0)%R)) by (eapply Permutation_in; [symmetry; exact P|apply nth_In; lia]).
  f_equal. field. lra.
Qed.
Lemma in_combine_nth (a b : list R) x y : In (x, y) (combine a b) -> exists k, 0 <= k < len a /\ k < len b /\ nthR a k = x /\ nthR b k = y.
Proof.
  unfold len, nthR. revert b. induction a as [|u a IH]; intros b H; cbn in H; [contradiction|]. destruct b as [|w b]; [contradiction|].
  destruct H as [[= <- <-]|H].
  - exists 0. cbn. repeat split; lia.
  - destruct (IH b H) as (k & H1 & H2 & H3 & H4). exists (k + 1). replace (Z.to_nat (k + 1)) with (S (Z.to_nat k)) by lia. cbn [nth length].
    repeat split; auto; lia.
Qed.
Lemma map_fst_combine {A B} (a : list A) (b : list B) : length a = length b -> map fst (combine a b) = a.
Proof. revert b. induction a; intros [|]; cbn; intros; try lia; auto. f_equal. apply IHa. lia. Qed.
Lemma nodup_nthR v : (forall k l, 0 <= k < l -> l < len v -> nthR v k <> nthR v l) -> NoDup v.
Proof.
  intros H. apply (NoDup_nth v 0%R). intros i j Hi Hj E. destruct (lt_eq_lt_dec i j) as [[L|L]|L]; auto; exfalso.
  - apply (H (Z.of_nat i) (Z.of_nat j)); unfold len, nthR; rewrite ?Nat2Z.id; auto; lia.
  - apply (H (Z.of_nat j) (Z.of_nat i)); unfold len, nthR; rewrite ?Nat2Z.id; auto; lia.
Qed.

(** ** compute_gainmap *)
Lemma gain_cube_ok v c : ascending v -> 0 < len v -> c_n c = len v -> exists g, gain_cube (F3 c) (F1 v) = Ok g /\ c_n g = len v - 1 /\
  c_rows g = c_rows c /\ c_cols g = c_cols c /\
  forall k i j, 0 <= k < len v - 1 -> at3 g k i j = ((at3 c (k + 1) i j - at3 c k i j) / (nthR v (k + 1) - nthR v k))%R.
Proof.
  intros S Hv Hn. destruct (diff_mean_ok v S ltac:(lia)) as (dm & E & L1 & L2 & V). unfold gain_cube. rewrite E. cbn [bind as_cube].
  rewrite (proj2 (Z.eqb_eq (len (fst dm) + 1) (c_n c))) by lia. cbn [guard bind].
  eexists. split; [reflexivity|]. cbn. split; [lia|]. split; [auto|]. split; [auto|]. intros k i j Hk.
  destruct (V k Hk) as [-> _]. reflexivity.
Qed.
Lemma gainmap_quadratic v c cmd n (a b d : Z -> Z -> R) : calibration v c n n -> 3 <= len v -> nr cmd = n -> nc cmd = n ->
  (forall i j k, 0 <= i < n -> 0 <= j < n -> 0 <= k < len v -> height c i j k = (a i j * command v k ^ 2 + b i j * command v k + d i j)%R) ->
  exists out, compute_gainmap cmd (F3 c) (F1 v) = Ok out /\ nr out = n /\ nc out = n /\
   forall i j, 0 <= i < n -> 0 <= j < n -> at2 out i j = Some (2 * a i j * at2 cmd i j + b i j)%R.
Proof.
  intros (S & Hn & Hr & Hc) Hl Rn Cn Hq. unfold compute_gainmap.
  destruct (diff_mean_ok v S ltac:(lia)) as (dm & E & L1 & L2 & V). rewrite E. cbn [bind].
  destruct (gain_cube_ok v c S ltac:(lia) Hn) as (g & Eg & Gn & Gr & Gc & Gv). rewrite Eg. cbn [bind].
  rewrite (proj2 (Z.eqb_eq (nr cmd) (c_cols g))), (proj2 (Z.eqb_eq (nc cmd) (c_rows g))) by lia. cbn [guard bind].
  rewrite Rn, Cn. apply fill2_ok. intros i j Hi Hj. rewrite profile_ok by lia. cbn [bind].
  rewrite (proj2 (Z.ltb_lt 0 _)) by (rewrite len_map_zrange; lia). cbn [guard bind]. f_equal.
  assert (Len : length (snd dm) = length (map (fun k => at3 g k i j) (zrange (c_n g)))).
  { rewrite map_length. apply Nat2Z.inj. rewrite length_zrange by lia. unfold len in *. lia. }
  replace (2 * a i j * at2 cmd i j + b i j)%R with ((2 * a i j) * at2 cmd i j + b i j)%R by ring.
  apply lin_interp_affine.
  - rewrite combine_length, <- Len, Nat.min_id. unfold len in *. lia.
  - rewrite map_fst_combine by auto. apply nodup_nthR. intros k l Hk Hl2. 
    destruct (V k ltac:(lia)) as (_ & _ & M1 & _). destruct (V l ltac:(lia)) as (_ & _ & M2 & _). rewrite M1, M2.
    pose proof (ascending_nth v k l S ltac:(lia) ltac:(lia)). pose proof (ascending_nth v (k + 1) (l + 1) S ltac:(lia) ltac:(lia)). lra.
  - intros [x y] I. cbn [fst snd]. apply in_combine_nth in I as (k & K1 & K2 & <- & <-).
    destruct (V k ltac:(lia)) as (_ & _ & M & _). rewrite M. unfold nthR at 1. rewrite nth_zrange by lia. rewrite Gv by lia.
    pose proof (Hq i j k Hi Hj ltac:(lia)) as Q1. pose proof (Hq i j (k + 1) Hi Hj ltac:(lia)) as Q2. unfold height, command in *.
    rewrite Q1, Q2. pose proof (ascending_nth v k (k + 1) S ltac:(lia) ltac:(lia)). field. lra.
Qed.
Lemma bind_guard_err {A} b e (k : res A) x : (do _ <- guard b e; k) = x -> (b = false /\ x = Err e) \/ (b = true /\ k = x).
Proof. destruct b; cbn; intros <-; auto. Qed.
Lemma gainmap_nonsquare cmd c v : 0 < nr cmd -> 0 < nc cmd -> nr cmd <> nc cmd -> ascending v ->
  exists e, compute_gainmap cmd (F3 c) (F1 v) = Err e /\ (e = IndexError \/ e = ValueError).
Proof.
  intros H1 H2 N S. unfold compute_gainmap.
  destruct (Z_le_gt_dec (len v) 0) as [L|L].
  { exists ValueError. split; [|auto]. destruct v as [|x v]; [|unfold len in L; cbn in L; lia].
    unfold diff_and_mean, verify_unique, verify_presorted. cbn. reflexivity. }
  destruct (diff_mean_ok v S ltac:(lia)) as (dm & E & _). rewrite E. cbn [bind].
  destruct (gain_cube (F3 c) (F1 v)) as [g|e] eqn:G; cbn [bind].
  - destruct (Z.eqb_spec (nr cmd) (c_cols g)) as [Q1|Q1]; cbn [guard bind]; [|eauto].
    destruct (Z.eqb_spec (nc cmd) (c_rows g)) as [Q2|Q2]; cbn [guard bind]; [|eauto].
    apply fill2_nonsquare; auto. intros i j h e _ He. left. destruct (0 <? len h); cbn [guard bind] in He; congruence.
  - exists e. split; auto. unfold gain_cube in G. rewrite E in G. cbn [bind as_cube] in G.
    destruct (len (fst dm) + 1 =? c_n c); cbn in G; [discriminate|]. right. congruence.
Qed.

(** ** Spline interpolation *)
Section S.
  Variable spline : list (R * R) -> R -> R.
  Hypothesis SP : interpolates spline.
  Lemma exists_le (l : list R) x : existsb (fun a => Rleb a x) l = true <-> exists a, In a l /\ (a <= x)%R.
  Proof. rewrite existsb_exists. split; intros (a & I & H); exists a; (split; [auto|]); apply Rleb_iff; auto. Qed.
  Lemma exists_ge (l : list R) x : existsb (fun a => Rleb x a) l = true <-> exists a, In a l /\ (x <= a)%R.
  Proof. rewrite existsb_exists. split; intros (a & I & H); exists a; (split; [auto|]); apply Rleb_iff; auto. Qed.
  Lemma cubic_ok xs ys x lo hi : length xs = length ys -> (4 <= length xs)%nat -> NoDup xs -> In lo xs -> In hi xs -> (lo <= x <= hi)%R ->
    cubic_interp spline xs ys x = Ok (spline (combine xs ys) x).
  Proof.
    intros L1 L2 D I1 I2 H. unfold cubic_interp. rewrite (proj2 (Nat.eqb_eq _ _) L1), (proj2 (Nat.leb_le _ _) L2), (proj2 (unique_ok xs) D).
    rewrite (proj2 (exists_le xs x)), (proj2 (exists_ge xs x)); [reflexivity|exists hi; split; [auto|lra]|exists lo; split; [auto|lra]].
  Qed.
  Lemma cubic_err xs ys x e : cubic_interp spline xs ys x = Err e -> e = ValueError.
  Proof.
    unfold cubic_interp. intros H. do 4 (apply guard_err in H as [[_ H]|[_ H]]; [auto|]). discriminate.
  Qed.
  Lemma in_nthR v k : 0 <= k < len v -> In (nthR v k) v.
  Proof. intros H. unfold nthR, len in *. apply nth_In. lia. Qed.
  Lemma heights_ok v c n cmd : calibration v c n n -> 4 <= len v -> nr cmd = n -> nc cmd = n ->
    (forall i j, 0 <= i < n -> 0 <= j < n -> in_range v (at2 cmd i j)) ->
    exists h, heights_for_command_map spline cmd (F3 c) (F1 v) = Ok h /\ nr h = n /\ nc h = n /\
    forall i j, 0 <= i < n -> 0 <= j < n -> at2 h i j = spline (points v c i j) (at2 cmd i j).
  Proof.
    intros (S & Hn & Hr & Hc) Hl R C B. unfold heights_for_command_map. cbn [as_cube as_vector bind].
    rewrite (proj2 (Z.eqb_eq (nr cmd) (c_cols c))), (proj2 (Z.eqb_eq (nc cmd) (c_rows c))) by lia. cbn [guard bind].
    rewrite (proj2 (proj1 (verify_unique_spec v))) by (apply ascending_nodup; auto). cbn [bind].
    rewrite presorted_complete by (apply ascending_le; auto). cbn [bind]. rewrite R, C.
    apply fill2_ok. intros i j Hi Hj. rewrite profile_ok by lia. cbn [bind]. unfold points.
    specialize (B i j Hi Hj). unfold in_range, command in B.
    assert (L : length v = length (map (fun k => at3 c k i j) (zrange (c_n c)))).
    { rewrite map_length. apply Nat2Z.inj. rewrite length_zrange by lia. unfold len in *. lia. }
    eapply cubic_ok; eauto using ascending_nodup; try (apply in_nthR; lia). unfold len in *. lia.
  Qed.
  Lemma heights_nodup v c i j : c_n c = len v -> heights_increase v c i j -> NoDup (map (fun k => at3 c k i j) (zrange (c_n c))).
  Proof.
    intros Hn H. apply nodup_nthR. intros k l Hk Hl. unfold len in Hl. rewrite map_length in Hl. rewrite length_zrange in Hl by (unfold len in *; lia).
    unfold nthR. rewrite !nth_zrange by lia. specialize (H k l Hk ltac:(lia)). unfold height in H. lra.
  Qed.
  Lemma heights_len v c i j : c_n c = len v -> length (map (fun k => at3 c k i j) (zrange (c_n c))) = length v.
  Proof. intros Hn. rewrite map_length. apply Nat2Z.inj. rewrite length_zrange by (unfold len in *; lia). unfold len in *. lia. Qed.
  Lemma in_heights v c i j k : c_n c = len v -> 0 <= k < len v -> In (at3 c k i j) (map (fun k => at3 c k i j) (zrange (c_n c))).
  Proof. intros Hn H. apply in_map_iff. exists k. split; auto. apply in_zrange. lia. Qed.
  Lemma commands_ok v c n hm : calibration v c n n -> 4 <= len v -> nr hm = n -> nc hm = n ->
    (forall i j, 0 <= i < n -> 0 <= j < n -> heights_increase v c i j /\ (height c i j 0 <= at2 hm i j <= height c i j (len v - 1))%R) ->
    exists o, commands_for_height_map spline hm (F3 c) (F1 v) = Ok o /\ nr o = n /\ nc o = n /\
    forall i j, 0 <= i < n -> 0 <= j < n -> at2 o i j = spline (points_inv v c i j) (at2 hm i j).
  Proof.
    intros (S & Hn & Hr & Hc) Hl R C B. unfold commands_for_height_map. cbn [as_cube as_vector bind].
    rewrite (proj2 (Z.eqb_eq (nr hm) (c_cols c))), (proj2 (Z.eqb_eq (nc hm) (c_rows c))) by lia. cbn [guard bind].
    rewrite (proj2 (proj1 (verify_unique_spec v))) by (apply ascending_nodup; auto). cbn [bind].
    rewrite presorted_complete by (apply ascending_le; auto). cbn [bind]. rewrite R, C.
    apply fill2_ok. intros i j Hi Hj. rewrite profile_ok by lia. cbn [bind]. unfold points_inv.
    destruct (B i j Hi Hj) as [I B']. unfold height in B'.
    pose proof (heights_len v c i j Hn) as L.
    eapply cubic_ok; [exact L| | |apply (in_heights v c i j 0); lia|apply (in_heights v c i j (len v - 1)); lia|exact B'].
    - rewrite L. unfold len in *. lia.
    - apply (heights_nodup v); auto.
  Qed.
  Lemma shape_close_refl {A B} (a : arr A) (b : arr B) : nr a = nr b -> nc a = nc b -> shape_close a b = true.
  Proof.
    intros R C. unfold shape_close, close. rewrite R, C.
    assert (K : forall x, Rleb (Rabs (x - x)) (atol_default + rtol_default * Rabs x) = true).
    { intros x. apply Rleb_iff. replace (x - x)%R with 0%R by ring. rewrite Rabs_R0. pose proof (Rabs_pos x). pose proof rtol_pos.
      unfold atol_default. nra. }
    rewrite !K. reflexivity.
  Qed.
  Lemma clamp_eq lo hi x : (lo <= hi)%R -> (if Rltb hi (if Rltb x lo then lo else x) then hi else (if Rltb x lo then lo else x)) = clamp lo hi x.
  Proof.
    intros H. unfold clamp, Rmax, Rmin. destruct (Rltb x lo) eqn:A.
    - apply Rltb_iff in A. rewrite (proj2 (Rltb_false hi lo)) by lra. destruct (Rle_dec hi x); destruct (Rle_dec lo _); lra.
    - apply Rltb_false in A. destruct (Rltb hi x) eqn:B; [apply Rltb_iff in B|apply Rltb_false in B];
        destruct (Rle_dec hi x); destruct (Rle_dec lo _); lra.
  Qed.
  Lemma clamp_bounds lo hi x : (lo <= hi)%R -> (lo <= clamp lo hi x <= hi)%R.
  Proof. intros H. unfold clamp, Rmax, Rmin. destruct (Rle_dec hi x); destruct (Rle_dec lo _); lra. Qed.
  Lemma clamp_id lo hi x : (lo <= x <= hi)%R -> clamp lo hi x = x.
  Proof. intros H. unfold clamp, Rmax, Rmin. destruct (Rle_dec hi x); destruct (Rle_dec lo _); lra. Qed.
  Lemma starting_ok v c n flat delta : calibration v c n n -> 4 <= len v -> nr flat = n -> nc flat = n -> nr delta = n -> nc delta = n ->
    (forall i j, 0 <= i < n -> 0 <= j < n -> in_range v (at2 flat i j) /\ heights_increase v c i j) ->
    exists o, starting_commands spline flat delta (F3 c) (F1 v) = Ok o /\ nr o = n /\ nc o = n /\
    forall i j, 0 <= i < n -> 0 <= j < n ->
      at2 o i j = spline (points_inv v c i j) (clamp (height c i j 0) (height c i j (len v - 1)) (spline (points v c i j) (at2 flat i j) + at2 delta i j)).
  Proof.
    intros Cal Hl R1 C1 R2 C2 B. unfold starting_commands. rewrite shape_close_refl by congruence. cbn [guard bind].
    destruct (heights_ok v c n flat Cal Hl R1 C1) as (h & Eh & Rh & Ch & Vh); [intros; apply B; auto|]. rewrite Eh. cbn [bind].
    unfold add2. rewrite (proj2 (same_shape_iff h delta)) by (split; congruence). cbn [guard bind as_cube].
    pose proof Cal as (S & Hn & Hr & Hc). cbn [amap2 nr nc at2].
    match goal with |- exists o, commands_for_height_map _ ?hm _ _ = _ /\ _ => set (s2 := hm) end.
    assert (V2 : forall i j, 0 <= i < n -> 0 <= j < n -> at2 s2 i j = clamp (height c i j 0) (height c i j (len v - 1)) (spline (points v c i j) (at2 flat i j) + at2 delta i j)).
    { intros i j Hi Hj. unfold s2. cbn [at2]. rewrite Vh by auto. rewrite Hn. apply clamp_eq.
      destruct (B i j Hi Hj) as [_ I]. specialize (I 0 (len v - 1) ltac:(lia) ltac:(lia)). unfold height in *. lra. }
    destruct (commands_ok v c n s2 Cal Hl) as (o & Eo & Ro & Co & Vo).
    - exact Rh.
    - exact Ch.
    - intros i j Hi Hj. destruct (B i j Hi Hj) as [_ I]. split; auto. rewrite V2 by auto. apply clamp_bounds.
      specialize (I 0 (len v - 1) ltac:(lia) ltac:(lia)). lra.
    - exists o. split; [auto|]. split; [auto|]. split; [auto|]. intros i j Hi Hj. rewrite Vo, V2 by auto. reflexivity.
  Qed.
  Lemma points_at v c i j k : ascending v -> c_n c = len v -> 0 <= k < len v -> spline (points v c i j) (command v k) = height c i j k.
  Proof.
    intros S Hn Hk. apply SP.
    - unfold points. rewrite map_fst_combine by (symmetry; apply heights_len; auto). apply ascending_nodup. auto.
    - unfold points, command, height.
      replace (at3 c k i j) with (nthR (map (fun k => at3 c k i j) (zrange (c_n c))) k) by (unfold nthR; rewrite nth_zrange by lia; auto).
      unfold nthR. rewrite <- combine_nth by (symmetry; apply heights_len; auto). apply nth_In. rewrite combine_length, (heights_len v) by auto.
      rewrite Nat.min_id. unfold len in *. lia.
  Qed.
  Lemma points_inv_at v c i j k : c_n c = len v -> heights_increase v c i j -> 0 <= k < len v -> spline (points_inv v c i j) (height c i j k) = command v k.
  Proof.
    intros Hn I Hk. apply SP.
    - unfold points_inv. rewrite map_fst_combine by (apply heights_len; auto). apply (heights_nodup v); auto.
    - unfold points_inv, command, height.
      replace (at3 c k i j) with (nthR (map (fun k => at3 c k i j) (zrange (c_n c))) k) by (unfold nthR; rewrite nth_zrange by lia; auto).
      unfold nthR. rewrite <- combine_nth by (apply heights_len; auto). apply nth_In. rewrite combine_length, (heights_len v) by auto.
      rewrite Nat.min_id. unfold len in *. lia.
  Qed.
  Lemma incr_le v c i j k l : heights_increase v c i j -> 0 <= k <= l -> l < len v -> (height c i j k <= height c i j l)%R.
  Proof. intros I H1 H2. destruct (Z.eq_dec k l) as [->|N]; [lra|]. left. apply I; lia. Qed.
  Lemma command_range v k : ascending v -> 0 <= k < len v -> in_range v (command v k).
  Proof.
    intros S H. unfold in_range, command. split.
    - destruct (Z.eq_dec k 0) as [->|N]; [lra|]. left. apply ascending_nth; auto; lia.
    - destruct (Z.eq_dec k (len v - 1)) as [->|N]; [lra|]. left. apply ascending_nth; auto; lia.
  Qed.
  (** Starting from calibration command k with the height change to calibration point l. *)
  Lemma starting_calibrated v c n flat delta (K L : Z -> Z -> Z) : calibration v c n n -> 4 <= len v ->
    nr flat = n -> nc flat = n -> nr delta = n -> nc delta = n ->
    (forall i j, 0 <= i < n -> 0 <= j < n -> heights_increase v c i j /\ 0 <= K i j < len v /\ 0 <= L i j < len v /\
       at2 flat i j = command v (K i j) /\ at2 delta i j = (height c i j (L i j) - height c i j (K i j))%R) ->
    exists o, starting_commands spline flat delta (F3 c) (F1 v) = Ok o /\ nr o = n /\ nc o = n /\
    forall i j, 0 <= i < n -> 0 <= j < n -> at2 o i j = command v (L i j).
  Proof.
    intros Cal Hl R1 C1 R2 C2 B. pose proof Cal as (S & Hn & Hr & Hc).
    destruct (starting_ok v c n flat delta Cal Hl R1 C1 R2 C2) as (o & E & R & C & V).
    - intros i j Hi Hj. destruct (B i j Hi Hj) as (I & HK & HL & EK & _). split; auto. rewrite EK. apply command_range; auto.
    - exists o. split; [auto|]. split; [auto|]. split; [auto|]. intros i j Hi Hj. rewrite V by auto.
      destruct (B i j Hi Hj) as (I & HK & HL & EK & ED). rewrite EK, ED, points_at by auto.
      replace (height c i j (K i j) + (height c i j (L i j) - height c i j (K i j)))%R with (height c i j (L i j)) by ring.
      rewrite clamp_id by (split; apply (incr_le v); auto; lia). apply points_inv_at; auto.
  Qed.
  (** Requested heights beyond the calibrated range give the end commands. *)
  Lemma starting_saturates v c n flat delta o : calibration v c n n -> 4 <= len v ->
    nr flat = n -> nc flat = n -> nr delta = n -> nc delta = n ->
    (forall i j, 0 <= i < n -> 0 <= j < n -> in_range v (at2 flat i j) /\ heights_increase v c i j) ->
    starting_commands spline flat delta (F3 c) (F1 v) = Ok o ->
    forall i j, 0 <= i < n -> 0 <= j < n ->
      ((height c i j (len v - 1) <= spline (points v c i j) (at2 flat i j) + at2 delta i j)%R -> at2 o i j = command v (len v - 1)) /\
      ((spline (points v c i j) (at2 flat i j) + at2 delta i j <= height c i j 0)%R -> at2 o i j = command v 0).
  Proof.
    intros Cal Hl R1 C1 R2 C2 B E. pose proof Cal as (S & Hn & Hr & Hc).
    destruct (starting_ok v c n flat delta Cal Hl R1 C1 R2 C2 B) as (o' & E' & R & C & V). rewrite E in E'. injection E' as <-.
    intros i j Hi Hj. destruct (B i j Hi Hj) as [_ I]. pose proof (incr_le v c i j 0 (len v - 1) I ltac:(lia) ltac:(lia)) as LE.
    rewrite V by auto. split; intros H.
    - replace (clamp _ _ _) with (height c i j (len v - 1)) by (unfold clamp, Rmax, Rmin; destruct (Rle_dec _ _); destruct (Rle_dec _ _); lra).
      apply points_inv_at; auto. lia.
    - replace (clamp _ _ _) with (height c i j 0) by (unfold clamp, Rmax, Rmin; destruct (Rle_dec _ _); destruct (Rle_dec _ _); lra).
      apply points_inv_at; auto. lia.
  Qed.
  (** delta_height_map *)
  Lemma delta_ok v c n before after : calibration v c n n -> 4 <= len v -> nr before = n -> nc before = n -> nr after = n -> nc after = n ->
    (forall i j, 0 <= i < n -> 0 <= j < n -> in_range v (at2 before i j) /\ in_range v (at2 after i j)) ->
    exists o, delta_height_map spline before after (F3 c) (F1 v) = Ok o /\ nr o = n /\ nc o = n /\
    forall i j, 0 <= i < n -> 0 <= j < n ->
      at2 o i j = (spline (points v c i j) (at2 after i j) - spline (points v c i j) (at2 before i j))%R.
  Proof.
    intros Cal Hl R1 C1 R2 C2 B. unfold delta_height_map. rewrite shape_close_refl by congruence. cbn [guard bind].
    destruct (heights_ok v c n before Cal Hl R1 C1) as (hb & Eb & Rb & Cb & Vb); [intros; apply B; auto|]. rewrite Eb. cbn [bind].
    destruct (heights_ok v c n after Cal Hl R2 C2) as (ha & Ea & Ra & Ca & Va); [intros; apply B; auto|]. rewrite Ea. cbn [bind].
    unfold add2. rewrite (proj2 (same_shape_iff ha hb)) by (split; congruence). cbn [guard bind].
    eexists. split; [reflexivity|]. cbn. split; [auto|]. split; [auto|]. intros i j Hi Hj. rewrite Va, Vb by auto. reflexivity.
  Qed.
  (** A dark-hole setting found relative to the same flat is reproduced. *)
  Lemma transfer v c n flat hole (K L : Z -> Z -> Z) delta : calibration v c n n -> 4 <= len v ->
    nr flat = n -> nc flat = n -> nr hole = n -> nc hole = n ->
    (forall i j, 0 <= i < n -> 0 <= j < n -> heights_increase v c i j /\ 0 <= K i j < len v /\ 0 <= L i j < len v /\
       at2 flat i j = command v (K i j) /\ at2 hole i j = command v (L i j)) ->
    delta_height_map spline flat hole (F3 c) (F1 v) = Ok delta ->
    exists o, starting_commands spline flat delta (F3 c) (F1 v) = Ok o /\ aeq o hole.
  Proof.
    intros Cal Hl R1 C1 R2 C2 B E. pose proof Cal as (S & Hn & Hr & Hc).
    destruct (delta_ok v c n flat hole Cal Hl R1 C1 R2 C2) as (d & Ed & Rd & Cd & Vd).
    { intros i j Hi Hj. destruct (B i j Hi Hj) as (I & HK & HL & EK & EL). rewrite EK, EL. split; apply command_range; auto. }
    rewrite E in Ed. injection Ed as <-.
    destruct (starting_calibrated v c n flat delta K L Cal Hl R1 C1 Rd Cd) as (o & Eo & Ro & Co & Vo).
    - intros i j Hi Hj. destruct (B i j Hi Hj) as (I & HK & HL & EK & EL). repeat (split; [auto|]).
      rewrite Vd, EK, EL, !points_at by auto. reflexivity.
    - exists o. split; auto. split; [congruence|]. split; [congruence|]. intros i j [Hi Hj]. rewrite Ro in Hi. rewrite Co in Hj.
      rewrite Vo by auto. symmetry. apply B; auto.
  Qed.
  (** Actuators whose height falls with command: every request ends at the last command. *)
  Lemma starting_decreasing v c n flat delta o : calibration v c n n -> 4 <= len v ->
    nr flat = n -> nc flat = n -> nr delta = n -> nc delta = n ->
    starting_commands spline flat delta (F3 c) (F1 v) = Ok o ->
    forall i j, 0 <= i < n -> 0 <= j < n -> (forall k l, 0 <= k < l -> l < len v -> (height c i j l < height c i j k)%R) ->
    at2 o i j = command v (len v - 1).
  Proof.
    intros Cal Hl R1 C1 R2 C2 E i j Hi Hj Dec. pose proof Cal as (S & Hn & Hr & Hc). unfold starting_commands in E.
    rewrite shape_close_refl in E by congruence. cbn [guard bind] in E.
    destruct (heights_for_command_map spline flat (F3 c) (F1 v)) as [h|] eqn:Eh; [|discriminate]. cbn [bind] in E.
    unfold add2 in E. destruct (same_shape h delta) eqn:SS; [|discriminate]. cbn [guard bind as_cube] in E.
    apply same_shape_iff in SS as [Sr Sc].
    unfold commands_for_height_map in E. cbn [as_cube as_vector bind amap2 nr nc at2] in E.
    apply guard_ok in E as [_ E]. apply guard_ok in E as [_ E].
    destruct (verify_unique v); [|discriminate]. destruct (verify_presorted v); [|discriminate]. cbn [bind] in E.
    apply fill2_inv in E as (Ro & Co & E). specialize (E i j ltac:(lia) ltac:(lia)).
    rewrite profile_ok in E by lia. cbn [bind] in E. 
    assert (LT : (at3 c (c_n c - 1) i j < at3 c 0 i j)%R) by (apply (Dec 0 (c_n c - 1)); lia).
    set (s := (at2 h i j + at2 delta i j)%R) in *.
    assert (X : (if Rltb (at3 c (c_n c - 1) i j) (if Rltb s (at3 c 0 i j) then at3 c 0 i j else s) then at3 c (c_n c - 1) i j
             else if Rltb s (at3 c 0 i j) then at3 c 0 i j else s) = at3 c (c_n c - 1) i j).
    { destruct (Rltb s (at3 c 0 i j)) eqn:B.
      - rewrite (proj2 (Rltb_iff _ _)) by auto. auto.
      - apply Rltb_false in B. rewrite (proj2 (Rltb_iff _ _)) by lra. auto. }
    rewrite X in E.
    assert (ND : NoDup (map (fun k => at3 c k i j) (zrange (c_n c)))).
    { apply nodup_nthR. intros k l Hk Hl2. unfold len in Hl2. rewrite (heights_len v) in Hl2 by auto. fold (len v) in Hl2.
      unfold nthR. rewrite !nth_zrange by lia. specialize (Dec k l Hk Hl2). unfold height in Dec. lra. }
    pose proof (heights_len v c i j Hn) as L.
    rewrite (cubic_ok _ _ _ (at3 c (c_n c - 1) i j) (at3 c (c_n c - 1) i j)) in E; auto.
    - injection E as <-. apply SP; [rewrite map_fst_combine by auto; auto|]. unfold command. rewrite <- Hn.
      replace (at3 c (c_n c - 1) i j) with (nthR (map (fun k => at3 c k i j) (zrange (c_n c))) (c_n c - 1)) by (unfold nthR; rewrite nth_zrange by lia; auto).
      unfold nthR. rewrite <- combine_nth by auto. apply nth_In. rewrite combine_length, L, Nat.min_id. unfold len in *. lia.
    - rewrite L. unfold len in *. lia.
    - apply (in_heights v); auto. lia.
    - apply (in_heights v); auto. lia.
    - lra.
  Qed.
  (** Nonsquare maps never succeed. *)
  Lemma starting_nonsquare v c flat delta : 0 < nr flat -> 0 < nc flat -> nr flat <> nc flat ->
    exists e, starting_commands spline flat delta (F3 c) (F1 v) = Err e /\ (e = IndexError \/ e = ValueError).
  Proof.
    intros H1 H2 N. unfold starting_commands. destruct (shape_close flat delta); cbn [guard bind]; [|eauto].
    assert (X : exists e, heights_for_command_map spline flat (F3 c) (F1 v) = Err e /\ (e = IndexError \/ e = ValueError)).
    { unfold heights_for_command_map. cbn [as_cube as_vector bind].
      destruct (Z.eqb_spec (nr flat) (c_cols c)) as [Q1|Q1]; cbn [guard bind]; [|eauto].
      destruct (Z.eqb_spec (nc flat) (c_rows c)) as [Q2|Q2]; cbn [guard bind]; [|eauto].
      unfold verify_unique. destruct (Nat.eqb _ _); cbn [guard bind]; [|eauto].
      unfold verify_presorted. destruct (allclose _ _ _ _); cbn [guard bind]; [|eauto].
      apply fill2_nonsquare; auto. intros i j h e _ He. right. eapply cubic_err; eauto. }
    destruct X as (e & -> & K). cbn [bind]. eauto.
  Qed.
End S.
(** A function that passes through its points. *)
Definition spline_ref (pts : list (R * R)) (x : R) : R :=
  match find (fun p => if Req_EM_T (fst p) x then true else false) pts with Some p => snd p | None => 0%R end.
Lemma spline_ref_ok : interpolates spline_ref.
Proof.
  intros pts x y D I. unfold spline_ref. induction pts as [|[a b] pts IH]; [contradiction|]. cbn [find fst].
  cbn [map fst] in D. inversion D as [|? ? Na Dp]; subst. destruct (Req_EM_T a x) as [->|N].
  - destruct I as [[= <-]|I]; auto. exfalso. apply Na. apply in_map_iff. exists (x, y). auto.
  - destruct I as [[= E _]|I]; [contradiction|]. auto.
Qed.
