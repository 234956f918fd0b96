From Coq Require Import ZArith Bool Reals List Lra Lia String.
From Flocq Require Import Core.
From Verif.Base Require Import Py Arr Vec Sums Lstsq.
From Verif.Model Require Import PadCrop Math Noll Fits Fresnel Dm Conjugate.
From Verif.Spec Require Import MathSpec ZernikeSpec DmSpec ConjugateSpec.
From Verif.Proofs Require Import MathP NollP ZernP PadCropP FitsP DmP DarkHoleP.
Import ListNotations.
Open Scope string_scope.
Open Scope Z_scope.

Lemma pos_real_iff x : pos_real x = true <-> (0 < x)%R.
Proof. unfold pos_real. destruct (Rlt_dec 0 x); split; auto; discriminate. Qed.

(** ** dead actuators *)
Lemma dead_map_ok n tie d : dead_map n tie = Ok d ->
  nr tie = n /\ nc tie = n /\ nr d = n /\ nc d = n /\
  forall i j, at2 d i j = if at2 tie i j =? -1 then 1%R else 0%R.
Proof.
  unfold dead_map. intros H. apply guard_ok in H. destruct H as [H E]. injection E as <-.
  apply andb_true_iff in H. destruct H as [H1 H2]. apply Z.eqb_eq in H1, H2. cbn. auto.
Qed.
Lemma dead_map_def n tie : nr tie = n -> nc tie = n -> exists d, dead_map n tie = Ok d.
Proof. intros H1 H2. unfold dead_map. rewrite H1, H2, Z.eqb_refl. cbn. eauto. Qed.

Lemma reassign_ok n1 n2 tie1 tie2 h1 h2 r1 r2 :
  nr h1 = n1 -> nc h1 = n1 -> nr h2 = n2 -> nc h2 = n2 ->
  reassign_dead n1 n2 tie1 tie2 h1 h2 = Ok (r1, r2) ->
  n1 = n2 /\ nr tie1 = n1 /\ nc tie1 = n1 /\ nr tie2 = n1 /\ nc tie2 = n1 /\
  nr r1 = n1 /\ nc r1 = n1 /\ nr r2 = n1 /\ nc r2 = n1 /\
  forall i j, in_arr h1 i j ->
    (dead tie1 i j -> at2 r1 i j = 0%R) /\ (dead tie2 i j -> at2 r2 i j = 0%R) /\
    (~ (dead tie1 i j /\ dead tie2 i j) -> (at2 r1 i j + at2 r2 i j = at2 h1 i j + at2 h2 i j)%R) /\
    (~ dead tie1 i j -> ~ dead tie2 i j -> at2 r1 i j = at2 h1 i j /\ at2 r2 i j = at2 h2 i j).
Proof.
  intros A1 A2 A3 A4 H. unfold reassign_dead in H.
  apply bind_ok in H. destruct H as (d1 & D1 & H). apply guard_ok in H. destruct H as [G1 H].
  apply bind_ok in H. destruct H as (d2 & D2 & H). apply guard_ok in H. destruct H as [G2 H].
  injection H as <- <-.
  apply dead_map_ok in D1, D2. destruct D1 as (T1 & T2 & S1 & S2 & V1).
  destruct D2 as (T3 & T4 & S3 & S4 & V2).
  assert (E : n1 = n2).
  { apply orb_true_iff in G1, G2. rewrite !Z.eqb_eq in *. lia. }
  subst n2. rewrite <- E in *. unfold zero_where, amap2; cbn [nr nc at2].
  repeat split; auto; try congruence; rewrite ?V1, ?V2; unfold dead in *;
   assert (B : bc_idx n1 i = i /\ bc_idx n1 j = j)
    by (unfold bc_idx, in_arr in *; destruct (Z.eqb_spec n1 1); lia);
   destruct B as [Bi Bj]; rewrite ?Bi, ?Bj;
   destruct (Z.eqb_spec (at2 tie1 i j) (-1)), (Z.eqb_spec (at2 tie2 i j) (-1)); try tauto; try contradiction;
   repeat match goal with |- context [Req_EM_T ?a ?b] => destruct (Req_EM_T a b) end; try lra; try tauto.
Qed.
Lemma reassign_def n tie1 tie2 h1 h2 :
  nr tie1 = n -> nc tie1 = n -> nr tie2 = n -> nc tie2 = n ->
  exists r, reassign_dead n n tie1 tie2 h1 h2 = Ok r.
Proof.
  intros A B C D. unfold reassign_dead.
  destruct (dead_map_def n tie1 A B) as [d1 ->]. destruct (dead_map_def n tie2 C D) as [d2 ->].
  cbn [bind]. rewrite !Z.eqb_refl. cbn. eauto.
Qed.

(** ** Zernike bands *)
Lemma resize_len m l : 0 < m -> List.length (resize_coef m l) = Z.to_nat m.
Proof.
  intros H. unfold resize_coef. destruct (Z.ltb_spec (Z.of_nat (List.length l)) m).
  - rewrite app_length, repeat_length. lia.
  - destruct (Z.ltb_spec m (Z.of_nat (List.length l))); [|lia]. rewrite firstn_length. lia.
Qed.
Lemma nth_firstn {A} (l : list A) d : forall n k, (k < n)%nat -> nth k (firstn n l) d = nth k l d.
Proof.
  induction l as [|a l IH]; intros n k H; [destruct n; auto|].
  destruct n; [lia|]. destruct k; cbn; auto. apply IH. lia.
Qed.
Lemma resize_nth m l k : (Z.of_nat k < m)%Z -> nth k (resize_coef m l) 0%R = nth k l 0%R.
Proof.
  intros H. unfold resize_coef. destruct (Z.ltb_spec (Z.of_nat (List.length l)) m).
  - destruct (Nat.lt_ge_cases k (List.length l)) as [L|L].
    + rewrite app_nth1; auto.
    + rewrite app_nth2 by auto. rewrite (nth_overflow l) by auto. apply nth_repeat.
  - destruct (Z.ltb_spec m (Z.of_nat (List.length l))); auto. apply nth_firstn. lia.
Qed.
Lemma skipn_nth {A} (l : list A) d : forall n k, nth k (skipn n l) d = nth (n + k) l d.
Proof.
  induction l as [|a l IH]; intros n k.
  - rewrite skipn_nil. rewrite !nth_overflow by (cbn; lia). reflexivity.
  - destruct n; cbn; auto.
Qed.
(** fold over a list of coefficients paired with consecutive modes *)
Lemma band_fold (f : Z -> R) (L : list R) : forall lo n, List.length L = n ->
  lsum (fun cj => fst cj * f (snd cj))%R (List.combine L (map (fun k => lo + k) (zrange (Z.of_nat n))))
  = rsum (fun i => nth (Z.to_nat i) L 0 * f (lo + i)%Z)%R (Z.of_nat n).
Proof.
  induction L as [|c L IH]; intros lo n E; cbn [List.length] in E; subst n.
  - reflexivity.
  - assert (Z1 : zrange (Z.of_nat (S (List.length L))) = 0 :: map (fun k => 1 + k) (zrange (Z.of_nat (List.length L)))).
    { unfold zrange. rewrite !Nat2Z.id. cbn [seq map]. f_equal. rewrite <- seq_shift, !map_map.
      apply map_ext. intros; lia. }
    rewrite Z1. cbn [map List.combine lsum fst snd]. rewrite map_map.
    rewrite (map_ext (fun x => lo + (1 + x)) (fun k => (lo + 1) + k)) by (intros; lia).
    rewrite IH by reflexivity. rewrite Nat2Z.inj_succ, <- Z.add_1_r, rsum_first by lia.
    f_equal.
    apply rsum_ext. intros k Hk. replace (Z.to_nat (k + 1)) with (S (Z.to_nat k)) by lia. cbn [nth].
    do 2 f_equal. lia.
Qed.
Lemma arange_pos lo hi j : 1 <= lo -> In j (arange lo hi) -> 1 <= j.
Proof. unfold arange. rewrite in_map_iff. intros H (k & <- & Hk). apply in_zrange in Hk. lia. Qed.
Lemma arange_len lo hi : List.length (arange lo hi) = Z.to_nat (hi - lo).
Proof. unfold arange, zrange. rewrite !map_length, seq_length. reflexivity. Qed.
Lemma arange_nil lo hi : lo < hi -> arange lo hi <> [].
Proof. intros H E. pose proof (arange_len lo hi). rewrite E in *. cbn in *. lia. Qed.

Section Split.
Variables (maxNoll : Z) (coef0 : list R) (diam : R) (h w : Z) (xo yo : R) (Zf : Z -> R -> R -> R).
Hypothesis HZ : is_mode_fun (diam / 2) Zf.
Hypothesis Hd : (0 < diam)%R.
Hypothesis Hh : 0 < h.
Hypothesis Hw : 0 < w.
Hypothesis HN : Z.max h w <> 1000000.
Local Notation N := (Z.max h w).

Lemma gen_band lo hi cs : 1 <= lo -> lo <= hi -> hi <= maxNoll ->
  List.length cs = Z.to_nat (hi - lo + 1) ->
  (forall i, 0 <= i < hi - lo + 1 -> nth (Z.to_nat i) cs 0%R = nth (Z.to_nat (lo + i - 1)) coef0 0%R) ->
  exists o z, gen_zernikes (arange lo (hi + 1)) cs xo yo diam N = Ok o /\ pad_crop o [h; w] 0%R = Ok z /\
    nr z = h /\ nc z = w /\
    forall r c, 0 <= r < h -> 0 <= c < w -> at2 z r c = band Zf coef0 lo hi (px_x w xo c) (px_x h yo r).
Proof.
  intros H1 H2 H3 HL HV.
  destruct (gen_zernikes_modes (arange lo (hi + 1)) cs xo yo diam N Zf) as (o & Eo & R1 & R2 & V); auto; try lia.
  - rewrite arange_len. lia.
  - apply arange_nil. lia.
  - intros j. apply arange_pos; auto.
  - destruct (pad_crop_ok o h w 0%R) as (z & Ez & S1 & S2 & P); auto; [split; lia|].
    exists o, z. repeat split; auto. intros r c Hr Hc. rewrite P by auto. rewrite R1, R2.
    assert (I : in_arr o (r - h / 2 + N / 2) (c - w / 2 + N / 2)).
    { unfold in_arr. rewrite R1, R2. lia. }
    pose proof (proj2 (in_arrb_spec _ _ _) I) as Ib. rewrite Ib.
    unfold in_arr in I. rewrite R1, R2 in I. rewrite V by lia.
    replace (c - w / 2 + N / 2 - N / 2) with (c - w / 2) by lia.
    replace (r - h / 2 + N / 2 - N / 2) with (r - h / 2) by lia.
    assert (G : forall f (l : list (R * Z)), lsum f l = fold_right Rplus 0%R (map f l)).
    { intros f l; induction l as [|q l IH]; cbn; auto. rewrite IH; auto. }
    rewrite <- G. unfold arange. replace (hi + 1 - lo) with (Z.of_nat (Z.to_nat (hi - lo + 1))) by lia.
    rewrite (band_fold (fun j => Zf j (IZR (c - w / 2) - xo) (IZR (r - h / 2) - yo))%R cs lo _ HL).
    unfold band, px_x. rewrite Z2Nat.id by lia. apply rsum_ext. intros i Hi. rewrite HV by auto. reflexivity.
Qed.

Lemma split_ok (fcm : bool) : (if fcm then 5 else 4) <= maxNoll ->
  exists z13 z4 z, gen_split_wfe fcm maxNoll coef0 diam h w xo yo = Ok (z13, z4, z) /\
  nr z13 = h /\ nc z13 = w /\ nr z4 = h /\ nc z4 = w /\ nr z = h /\ nc z = w /\
  forall r c, 0 <= r < h -> 0 <= c < w -> let x := px_x w xo c in let y := px_x h yo r in
    at2 z13 r c = band Zf coef0 1 3 x y /\
    at2 z4 r c = (if fcm then band Zf coef0 4 4 x y else 0%R) /\
    at2 z r c = band Zf coef0 (if fcm then 5 else 4) maxNoll x y.
Proof.
  intros Hm. unfold gen_split_wfe.
  rewrite guard_true by (apply Z.ltb_lt; destruct fcm; lia).
  rewrite guard_true by (apply pos_real_iff; auto).
  set (L := resize_coef maxNoll coef0).
  assert (HL : List.length L = Z.to_nat maxNoll) by (apply resize_len; destruct fcm; lia).
  assert (HV : forall k, (Z.of_nat k < maxNoll)%Z -> nth k L 0%R = nth k coef0 0%R)
    by (intros; apply resize_nth; auto).
  destruct (gen_band 1 3 (firstn 3 L)) as (o1 & z1 & G1 & P1 & S1 & S1' & V1); try lia.
  { destruct fcm; lia. }
  { rewrite firstn_length, HL. destruct fcm; lia. }
  { intros i Hi. rewrite nth_firstn by lia. rewrite HV by (destruct fcm; lia). do 2 f_equal; lia. }
  change (arange 1 (3 + 1)) with [1; 2; 3] in G1.
  destruct (gen_band (if fcm then 5 else 4) maxNoll (if fcm then skipn 4 L else skipn 3 L))
    as (o2 & z2 & G2 & P2 & S2 & S2' & V2); try (destruct fcm; lia).
  { destruct fcm; rewrite skipn_length, HL; lia. }
  { intros i Hi. destruct fcm; rewrite skipn_nth, HV by lia; f_equal; lia. }
  cbv zeta. destruct fcm.
  - destruct (gen_band 4 4 [nth 3 L 0%R]) as (o3 & z3 & G3 & P3 & S3 & S3' & V3); try lia; auto.
    { intros i Hi. assert (i = 0) by lia. subst i. cbn [Z.to_nat nth]. rewrite HV by lia. reflexivity. }
    change (arange 4 (4 + 1)) with [4] in G3.
    assert (E3 : nth_error L 3 = Some (nth 3 L 0%R)) by (apply nth_error_nth'; lia).
    rewrite E3, G3. cbn [bind]. rewrite P3. cbn [bind]. rewrite G1. cbn [bind]. rewrite P1. cbn [bind].
    rewrite G2. cbn [bind]. rewrite P2. cbn [bind]. eexists _, _, _. split; [reflexivity|].
    repeat split; auto.
  - rewrite guard_true by (apply andb_true_iff; split; apply Z.leb_le; lia). cbn [bind]. rewrite G1. cbn [bind].
    rewrite P1. cbn [bind]. rewrite G2. cbn [bind]. rewrite P2. cbn [bind].
    eexists _, _, _. split; [reflexivity|]. repeat split; auto.
Qed.
End Split.

Lemma band_split Zf cs a b c x y : a <= b + 1 -> b <= c ->
  (band Zf cs a b x y + band Zf cs (b + 1) c x y = band Zf cs a c x y)%R.
Proof.
  intros H1 H2. unfold band. replace (c - a + 1) with ((b - a + 1) + (c - (b + 1) + 1)) by lia.
  rewrite (rsum_split _ (b - a + 1) (c - (b + 1) + 1)) by lia. f_equal. apply rsum_ext. intros k Hk.
  replace (b + 1 + k) with (a + (b - a + 1 + k)) by lia. reflexivity.
Qed.

(** ** rms over the usable pixels *)
Lemma lsum_filter {P} (f : P -> R) (p : P -> bool) l :
  lsum f (filter p l) = lsum (fun x => if p x then f x else 0%R) l.
Proof. induction l as [|x l IH]; cbn; auto. destruct (p x); cbn; rewrite IH; ring. Qed.
Definition upts (use : arr bool) : list (Z * Z) :=
  filter (fun p => at2 use (fst p) (snd p)) (indices (nr use) (nc use)).
Lemma use_sum_pts use f : use_sum use f = lsum (fun p => f (fst p) (snd p)) (upts use).
Proof. unfold use_sum, upts. rewrite lsum_filter, <- lsum_indices. apply lsum_ext. intros [i j] _. reflexivity. Qed.
Lemma in_upts use i j : In (i, j) (upts use) <-> in_arr use i j /\ at2 use i j = true.
Proof. unfold upts. rewrite filter_In, in_indices. unfold in_arr. cbn [fst snd]. tauto. Qed.
Lemma upts_nonempty use : upts use <> [] <-> some_usable use.
Proof.
  unfold some_usable. split.
  - intros H. destruct (upts use) as [|[i j] l] eqn:E; [congruence|]. exists i, j. apply in_upts.
    rewrite E. cbn; auto.
  - intros (i & j & H). apply in_upts in H. destruct (upts use); [destruct H|discriminate].
Qed.
Lemma use_count_pos use : some_usable use -> (0 < use_sum use (fun _ _ => 1))%R.
Proof.
  intros H. rewrite use_sum_pts, lsum_const, Rmult_1_r. apply len_pos, upts_nonempty; auto.
Qed.
Lemma use_sum_ext use f g : (forall i j, in_arr use i j -> at2 use i j = true -> f i j = g i j) ->
  use_sum use f = use_sum use g.
Proof.
  intros H. apply rsum2_ext. intros i j Hi Hj. destruct (at2 use i j) eqn:E; auto. apply H; auto. split; auto.
Qed.
Lemma use_sum_add use f g : use_sum use (fun i j => f i j + g i j)%R = (use_sum use f + use_sum use g)%R.
Proof. rewrite !use_sum_pts. apply lsum_add. Qed.
Lemma use_sum_scal use c f : use_sum use (fun i j => c * f i j)%R = (c * use_sum use f)%R.
Proof. rewrite !use_sum_pts. apply lsum_scal. Qed.
Lemma use_sum_nonneg use f : (forall i j, 0 <= f i j)%R -> (0 <= use_sum use f)%R.
Proof. intros H. rewrite use_sum_pts. apply lsum_nonneg. auto. Qed.
Lemma use_sum_sq use f g t : use_sum use (fun i j => (f i j + t * g i j) ^ 2)%R =
  (use_sum use (fun i j => f i j ^ 2) + 2 * t * use_sum use (fun i j => f i j * g i j)
   + t ^ 2 * use_sum use (fun i j => g i j ^ 2))%R.
Proof.
  rewrite <- !use_sum_scal, <- !use_sum_add. apply use_sum_ext. intros; ring.
Qed.
Lemma use_cauchy use f g :
  (use_sum use (fun i j => f i j * g i j) ^ 2
   <= use_sum use (fun i j => f i j ^ 2) * use_sum use (fun i j => g i j ^ 2))%R.
Proof.
  set (F := use_sum use (fun i j => f i j ^ 2)%R). set (G := use_sum use (fun i j => g i j ^ 2)%R).
  set (X := use_sum use (fun i j => f i j * g i j)%R).
  assert (Q : forall t, (0 <= F + 2 * t * X + t ^ 2 * G)%R).
  { intros t. unfold F, X, G. rewrite <- use_sum_sq. apply use_sum_nonneg. intros; apply pow2_ge_0. }
  assert (0 <= G)%R by (apply use_sum_nonneg; intros; apply pow2_ge_0).
  destruct (Req_dec G 0) as [Z|N].
  - rewrite Z in *. destruct (Req_dec X 0) as [->|NX]; [lra|].
    pose proof (Q (- (F + 1) / (2 * X))%R) as K.
    replace (F + 2 * (- (F + 1) / (2 * X)) * X + (- (F + 1) / (2 * X)) ^ 2 * 0)%R with (-1)%R in K by (field; auto).
    lra.
  - pose proof (Q (- X / G)%R) as K.
    replace (F + 2 * (- X / G) * X + (- X / G) ^ 2 * G)%R with ((F * G - X ^ 2) / G)%R in K by (field; auto).
    assert (0 < G)%R by lra.
    assert (0 <= (F * G - X ^ 2) / G * G)%R by (apply Rmult_le_pos; lra).
    replace ((F * G - X ^ 2) / G * G)%R with (F * G - X ^ 2)%R in * by (field; auto). lra.
Qed.
Lemma rms_on_unique use f v v' : some_usable use -> rms_on use f v -> rms_on use f v' -> v = v'.
Proof.
  intros H [A B] [A' B']. pose proof (use_count_pos use H) as P.
  assert (E : (v ^ 2 = v' ^ 2)%R) by (apply (Rmult_eq_reg_r (use_sum use (fun _ _ => 1%R))); lra).
  assert ((v - v') * (v + v') = 0)%R by (replace ((v - v') * (v + v'))%R with (v ^ 2 - v' ^ 2)%R by ring; lra).
  apply Rmult_integral in H0. lra.
Qed.
Lemma rms_on_exists use f : some_usable use -> exists v, rms_on use f v.
Proof.
  intros H. pose proof (use_count_pos use H) as P.
  set (S := use_sum use (fun i j => f i j ^ 2)%R).
  assert (0 <= S)%R by (apply use_sum_nonneg; intros; apply pow2_ge_0).
  exists (sqrt (S / use_sum use (fun _ _ => 1%R))). split; [apply sqrt_pos|]. rewrite pow2_sqrt.
  - fold S. field. lra.
  - apply Rmult_le_pos; auto. left. apply Rinv_0_lt_compat; auto.
Qed.
Lemma rms_pts use (f : Z * Z -> R) r : rms (map f (upts use)) = Some r ->
  rms_on use (fun i j => f (i, j)) r /\ some_usable use.
Proof.
  intros E. assert (N : upts use <> []) by (intros Z; rewrite Z in E; discriminate).
  destruct (rms_ok (map f (upts use))) as (v & Ev & A & B & _); [destruct (upts use); [auto|discriminate]|].
  rewrite E in Ev. injection Ev as <-. split; [split; auto|apply upts_nonempty; auto].
  rewrite !use_sum_pts, lsum_const, Rmult_1_r. rewrite map_length in B. rewrite map_map, sum_list_lsum in B.
  rewrite Rmult_comm, B. apply lsum_ext. intros [i j] _. reflexivity.
Qed.
Lemma rms_pts_some use (f : Z * Z -> R) : some_usable use -> exists r, rms (map f (upts use)) = Some r.
Proof.
  intros H. apply upts_nonempty in H. destruct (upts use) as [|p l]; [congruence|]. cbn. eauto.
Qed.
Lemma select_pts {A} use (a : arr A) : nr a = nr use -> nc a = nc use ->
  select use a = map (fun p => at2 a (fst p) (snd p)) (upts use).
Proof. intros E1 E2. unfold select, upts. rewrite E1, E2. reflexivity. Qed.
Lemma combine_map2 {A B D} (f : A -> B) (g : A -> D) l :
  List.combine (map f l) (map g l) = map (fun p => (f p, g p)) l.
Proof. induction l as [|x l IH]; cbn; auto. rewrite IH; auto. Qed.

Lemma cost_ok alpha z a use : nr z = nr use -> nc z = nc use -> nr a = nr use -> nc a = nc use ->
  some_usable use -> (0 <= alpha <= 1)%R ->
  exists r1 r2, phase_cost_function alpha z a use = Ok (Some ((r1 - r2) ^ 2)%R) /\
    rms_on use (fun i j => at2 a i j + alpha * at2 z i j)%R r1 /\
    rms_on use (fun i j => (1 - alpha) * at2 z i j)%R r2.
Proof.
  intros E1 E2 E3 E4 U Ha. unfold phase_cost_function.
  rewrite guard_true.
  2:{ apply negb_true_iff, orb_false_iff. split; apply Rltb_false; lra. }
  rewrite guard_true by (apply same_shape_iff; auto). rewrite guard_true by (apply same_shape_iff; auto).
  rewrite !(select_pts use) by auto. rewrite combine_map2, !map_map. cbn [fst snd].
  destruct (rms_pts_some use (fun p => at2 a (fst p) (snd p) + alpha * at2 z (fst p) (snd p))%R U) as [r1 E5].
  destruct (rms_pts_some use (fun p => (1 - alpha) * at2 z (fst p) (snd p))%R U) as [r2 E6].
  rewrite E5, E6. exists r1, r2. split; auto.
  apply rms_pts in E5, E6. cbn [fst snd] in *. tauto.
Qed.
Lemma cost_errors alpha z a use e : phase_cost_function alpha z a use = Err e ->
  e = ValueError /\ ((alpha < 0)%R \/ (1 < alpha)%R \/ nr z <> nr use \/ nc z <> nc use \/ nr a <> nr use \/ nc a <> nc use).
Proof.
  unfold phase_cost_function. intros H.
  apply guard_err in H. destruct H as [[H ->]|[_ H]].
  { apply negb_false_iff, orb_true_iff in H. rewrite !Rltb_iff in H. tauto. }
  apply guard_err in H. destruct H as [[H ->]|[_ H]].
  { unfold same_shape in H. apply andb_false_iff in H. rewrite !Z.eqb_neq in H. tauto. }
  apply guard_err in H. destruct H as [[H ->]|[_ H]]; [|discriminate].
  unfold same_shape in H. apply andb_false_iff in H. rewrite !Z.eqb_neq in H. tauto.
Qed.

(** ** the balanced split *)
Section Balance.
Variables (use : arr bool) (z a : arr R).
Hypothesis U : some_usable use.
Local Notation zz := (use_sum use (fun i j => at2 z i j ^ 2)%R).
Local Notation aa := (use_sum use (fun i j => at2 a i j ^ 2)%R).
Local Notation az := (use_sum use (fun i j => at2 a i j * at2 z i j)%R).
Local Notation cnt := (use_sum use (fun _ _ => 1%R)).
Lemma sum_tail alpha : use_sum use (fun i j => ((1 - alpha) * at2 z i j) ^ 2)%R = ((1 - alpha) ^ 2 * zz)%R.
Proof. rewrite <- use_sum_scal. apply use_sum_ext. intros; ring. Qed.
Lemma equalises_iff alpha : equalises use z a alpha <-> (2 * alpha * (az + zz) = zz - aa)%R.
Proof.
  unfold equalises. split.
  - intros (r & [A1 A2] & [B1 B2]). rewrite A2 in B2. rewrite sum_tail, use_sum_sq in B2. lra.
  - intros E.
    destruct (rms_on_exists use (fun i j => (1 - alpha) * at2 z i j)%R U) as [r H]. exists r. split; auto.
    destruct H as [A B]. split; auto. rewrite B, sum_tail, use_sum_sq. lra.
Qed.
Lemma rms_lt rz ra : rms_on use (at2 z) rz -> rms_on use (at2 a) ra -> (ra < rz)%R -> (aa < zz)%R.
Proof.
  intros [A1 A2] [B1 B2] L. rewrite <- A2, <- B2. apply Rmult_lt_compat_r; [apply use_count_pos; auto|].
  nra.
Qed.
Lemma denominator_pos : (aa < zz)%R -> (0 < az + zz)%R.
Proof.
  intros L. pose proof (use_cauchy use (at2 a) (at2 z)) as C. cbv beta in C.
  assert (0 <= aa)%R by (apply use_sum_nonneg; intros; apply pow2_ge_0).
  destruct (Rlt_or_le 0 (az + zz)) as [|N]; auto. exfalso.
  assert (zz <= - az)%R by lra. assert (zz * zz <= az * az)%R by nra. assert (aa * zz < zz * zz)%R by nra. nra.
Qed.
Lemma balanced rz ra : rms_on use (at2 z) rz -> rms_on use (at2 a) ra -> (ra < rz)%R ->
  exists alpha, (0 < alpha <= 1)%R /\ equalises use z a alpha /\
    forall b, equalises use z a b -> b = alpha.
Proof.
  intros A B L. pose proof (rms_lt _ _ A B L) as S. pose proof (denominator_pos S) as D.
  exists ((zz - aa) / (2 * (az + zz)))%R.
  assert (P : (0 <= aa + 2 * 1 * az + 1 ^ 2 * zz)%R).
  { rewrite <- use_sum_sq. apply use_sum_nonneg. intros; apply pow2_ge_0. }
  split; [split|split].
  - apply Rmult_lt_0_compat; [lra|]. apply Rinv_0_lt_compat; lra.
  - apply (Rmult_le_reg_r (2 * (az + zz))); [lra|]. unfold Rdiv. rewrite Rmult_assoc, Rinv_l by lra. lra.
  - apply equalises_iff. field. lra.
  - intros b E. apply equalises_iff in E. apply (Rmult_eq_reg_r (2 * (az + zz))); [|lra].
    unfold Rdiv. rewrite Rmult_assoc, Rinv_l by lra. lra.
Qed.
(** For orthogonal maps with the low orders weaker, nothing beats sending them all to DM2. *)
Lemma zero_best rz ra alpha r1 r2 : rms_on use (at2 z) rz -> rms_on use (at2 a) ra -> (rz <= ra)%R ->
  az = 0%R -> (0 <= alpha <= 1)%R ->
  rms_on use (fun i j => at2 a i j + alpha * at2 z i j)%R r1 ->
  rms_on use (fun i j => (1 - alpha) * at2 z i j)%R r2 -> ((ra - rz) ^ 2 <= (r1 - r2) ^ 2)%R.
Proof.
  intros [A1 A2] [B1 B2] L O Ha [C1 C2] [D1 D2]. pose proof (use_count_pos use U) as P.
  rewrite use_sum_sq, O in C2. rewrite sum_tail in D2.
  assert (E2 : (r2 = (1 - alpha) * rz)%R).
  { apply (rms_on_unique use (fun i j => (1 - alpha) * at2 z i j)%R); auto; split; auto.
    - rewrite sum_tail. auto.
    - apply Rmult_le_pos; lra.
    - rewrite sum_tail. rewrite <- A2. ring. }
  assert (E1 : (ra <= r1)%R).
  { assert (0 <= zz)%R by (apply use_sum_nonneg; intros; apply pow2_ge_0).
    assert (ra ^ 2 * cnt <= r1 ^ 2 * cnt)%R.
    { rewrite C2, B2. assert (0 <= alpha ^ 2 * zz)%R by (apply Rmult_le_pos; [apply pow2_ge_0|auto]). lra. }
    apply Rmult_le_reg_r in H0; auto. nra. }
  assert (r2 <= rz)%R by (rewrite E2; nra).
  assert (0 <= ra - rz <= r1 - r2)%R by lra. nra.
Qed.
End Balance.

(** ** desired surfaces *)
Lemma clip_in lo hi v : (lo <= v <= hi)%R -> clip lo hi v = v.
Proof.
  intros H. unfold clip. destruct (Rltb v lo) eqn:E; [apply Rltb_iff in E; lra|].
  cbv zeta. destruct (Rltb hi v) eqn:E2; [apply Rltb_iff in E2; lra|]. auto.
Qed.
Lemma clip_range lo hi v : (lo <= hi)%R -> (lo <= clip lo hi v <= hi)%R.
Proof.
  intros H. unfold clip. cbv zeta. destruct (Rltb v lo) eqn:E;
  destruct (Rltb hi _) eqn:E2; rewrite ?Rltb_iff, ?Rltb_false in *; lra.
Qed.
Lemma convolve_same_bounds a k m M i j : averaging k -> (m <= 0 <= M)%R ->
  (forall i j, in_arr a i j -> (m <= at2 a i j <= M)%R) -> (m <= at2 (convolve_same a k) i j <= M)%R.
Proof.
  intros (K1 & K2 & K3 & K4) H0 H. unfold convolve_same; cbn [at2].
  assert (B : forall u v, (m <= at0 a u v <= M)%R).
  { intros u v. unfold at0. destruct (in_arrb a u v) eqn:E; [apply H, in_arrb_spec; auto|lra]. }
  split.
  - rewrite <- (Rmult_1_r m), <- K4. rewrite <- rsum2_scal. apply rsum2_le. intros p q Hp Hq.
    rewrite Rmult_comm. apply Rmult_le_compat_l; [apply K3; split; auto|apply B].
  - rewrite <- (Rmult_1_r M), <- K4. rewrite <- rsum2_scal. apply rsum2_le. intros p q Hp Hq.
    rewrite (Rmult_comm M). apply Rmult_le_compat_l; [apply K3; split; auto|apply B].
Qed.
Lemma smooth_ok ker a wd s : 0 < nr a -> 0 < nc a -> smooth_surface ker a wd = Ok s ->
  (0 < wd)%R /\ aeq s (convolve_same a (ker wd)).
Proof.
  intros Hr Hc H. unfold smooth_surface in H. apply guard_ok in H. destruct H as [G H].
  apply pos_real_iff in G. split; auto.
  apply aeq_sym. apply aeq_sym. eapply pad_crop_same_lemma; [|exact H].
  split; cbn; lia.
Qed.
Lemma smooth_def ker a wd : (0 < wd)%R -> 0 < nr a -> 0 < nc a -> exists s, smooth_surface ker a wd = Ok s.
Proof.
  intros G Hr Hc. unfold smooth_surface. rewrite guard_true by (apply pos_real_iff; auto).
  destruct (pad_crop_ok (convolve_same a (ker wd)) (nr a) (nc a) 0%R) as (o & E & _); auto; [split; cbn; lia|].
  eauto.
Qed.
Lemma smooth_loop_ok ker mask half wd n : forall s out, 0 < nr s -> 0 < nc s ->
  smooth_loop ker mask half wd n s = Ok out ->
  nr out = nr s /\ nc out = nc s /\
  (forall i j, in_arr s i j -> at2 mask i j = true -> at2 s i j = at2 half i j -> at2 out i j = at2 half i j) /\
  (forall m M, averaging (ker (IZR wd)) -> (m <= 0 <= M)%R ->
     (forall i j, in_arr s i j -> (m <= at2 s i j <= M)%R) ->
     (forall i j, in_arr s i j -> (m <= at2 half i j <= M)%R) ->
     forall i j, in_arr s i j -> (m <= at2 out i j <= M)%R).
Proof.
  induction n as [|n IH]; intros s out Hr Hc H; cbn in H.
  - injection H as <-. do 2 (split; auto).
  - apply bind_ok in H. destruct H as (t & Et & H). apply smooth_ok in Et; auto.
    destruct Et as [_ (T1 & T2 & T3)]. cbn [nr nc convolve_same] in T1, T2.
    apply IH in H; cbn [nr nc set_where] in *; try lia.
    destruct H as (S1 & S2 & A & B). rewrite T1 in S1. rewrite T2 in S2.
    split; [auto|]. split; [auto|]. split.
    + intros i j Hin Hm _. apply A; auto.
      * unfold in_arr, set_where in *. cbn. rewrite T1, T2. auto.
      * cbn. rewrite Hm. auto.
    + intros m M Hav H0 Hs Hhalf i j Hin. apply (B m M); auto.
      * intros u v Huv. cbn. assert (in_arr s u v) by (unfold in_arr in *; cbn in Huv; rewrite T1, T2 in Huv; auto).
        destruct (at2 mask u v); [auto|]. rewrite T3 by (unfold in_arr in *; cbn in *; auto).
        apply convolve_same_bounds; auto.
      * intros u v Huv. apply Hhalf. unfold in_arr in *; cbn in Huv; rewrite T1, T2 in Huv; auto.
      * unfold in_arr in *; cbn; rewrite T1, T2; auto.
Qed.

Lemma select_min_max use a v0 vs : select use a = v0 :: vs ->
  is_min_on use a (list_min v0 vs) /\ is_max_on use a (list_max v0 vs).
Proof.
  intros E. assert (I : forall v, In v (v0 :: vs) <-> exists i j, in_arr a i j /\ at2 use i j = true /\ v = at2 a i j).
  { intros v. rewrite <- E. apply in_select. }
  split; split.
  - destruct (proj1 (I _) (list_min_in v0 vs)) as (i & j & A & B & C). exists i, j. auto.
  - intros i j A B. apply list_min_le, I. eauto.
  - destruct (proj1 (I _) (list_max_in v0 vs)) as (i & j & A & B & C). exists i, j. auto.
  - intros i j A B. apply list_max_ge, I. eauto.
Qed.
Lemma surface_ok ker high nIter n crop cx cy phase surf : wf phase ->
  desired_surface ker high nIter n crop cx cy phase = Ok surf ->
  exists ph0 lo hi, pad_crop phase [n; n] 0%R = Ok ph0 /\ nr surf = n /\ nc surf = n /\
    is_min_on crop ph0 lo /\ is_max_on crop ph0 hi /\
    (forall i j, in_arr surf i j -> at2 crop i j = true -> at2 surf i j = (at2 ph0 i j / 2)%R) /\
    (high = false -> forall i j, in_arr surf i j ->
       (at2 ph0 i j < lo -> at2 surf i j = lo / 2)%R /\ (hi < at2 ph0 i j -> at2 surf i j = hi / 2)%R /\
       (lo <= at2 ph0 i j <= hi -> at2 surf i j = at2 ph0 i j / 2)%R) /\
    ((forall wd, averaging (ker wd)) -> forall i j, in_arr surf i j ->
       (Rmin 0 lo / 2 <= at2 surf i j <= Rmax 0 hi / 2)%R).
Proof.
  intros W H. unfold desired_surface in H. apply bind_ok in H. destruct H as (ph0 & E0 & H).
  destruct (select crop ph0) as [|v0 vs] eqn:Es; [discriminate|].
  destruct (select_min_max _ _ _ _ Es) as [Hmin Hmax].
  set (lo := list_min v0 vs) in *. set (hi := list_max v0 vs) in *.
  pose proof E0 as E0'. apply pad_crop_inv in E0'; auto.
  destruct E0' as (h & w & Ehw & Hh & Hw & R1 & R2 & _). injection Ehw as <- <-.
  assert (Llh : (lo <= hi)%R).
  { destruct Hmin as [(i & j & A & B & C) _]. rewrite <- C. apply Hmax; auto. }
  exists ph0, lo, hi.
  set (half := amap (fun v => clip lo hi v / 2)%R ph0) in *.
  assert (Hhalf : forall i j, in_arr ph0 i j -> at2 crop i j = true -> at2 half i j = (at2 ph0 i j / 2)%R).
  { intros i j A B. unfold half; cbn. rewrite clip_in; auto. split; [apply Hmin|apply Hmax]; auto. }
  assert (Hb : forall i j, (lo / 2 <= at2 half i j <= hi / 2)%R).
  { intros i j. unfold half; cbn. pose proof (clip_range lo hi (at2 ph0 i j) Llh). lra. }
  pose proof (Rmin_l 0 lo). pose proof (Rmin_r 0 lo). pose proof (Rmax_l 0 hi). pose proof (Rmax_r 0 hi).
  destruct high.
  - apply smooth_loop_ok in H; [|cbn; lia|cbn; lia]. destruct H as (S1 & S2 & A & B).
    cbn [nr nc amap half] in S1, S2. split; auto. split; [lia|]. split; [lia|]. do 2 (split; auto).
    assert (I : forall i j, in_arr surf i j -> in_arr half i j).
    { intros i j. unfold in_arr, half; cbn. rewrite S1, S2. auto. }
    split; [|split; [discriminate|]].
    + intros i j Hin Hc. rewrite A; auto. apply Hhalf; auto. apply I in Hin. exact Hin.
    + intros Hav i j Hin. apply (B (Rmin 0 lo / 2)%R (Rmax 0 hi / 2)%R); auto; try lra;
      intros u v _; pose proof (Hb u v); lra.
  - injection H as <-. cbn [nr nc amap half]. split; auto. split; [lia|]. split; [lia|]. do 2 (split; auto).
    split; [|split].
    + intros i j Hin Hc. apply Hhalf; auto.
    + intros _ i j Hin. unfold half; cbn [at2 amap]. unfold clip. cbv zeta.
      destruct (Rltb (at2 ph0 i j) lo) eqn:C1;
      destruct (Rltb hi _) eqn:C2; rewrite ?Rltb_iff, ?Rltb_false in *; repeat split; intros; lra.
    + intros _ i j Hin. pose proof (Hb i j). lra.
Qed.

(** ** the front part of flatten *)
Lemma split_inv (fcm : bool) maxNoll cs diam h w xo yo out :
  gen_split_wfe fcm maxNoll cs diam h w xo yo = Ok out ->
  (if fcm then 5 else 4) <= maxNoll /\ (0 < diam)%R /\ 0 < h /\ 0 < w.
Proof.
  unfold gen_split_wfe. intros H. apply guard_ok in H. destruct H as [G1 H].
  apply guard_ok in H. destruct H as [G2 H]. apply pos_real_iff in G2. cbv zeta in H.
  apply bind_ok in H. destruct H as (z4 & _ & H). apply bind_ok in H. destruct H as (g1 & Eg1 & H).
  apply bind_ok in H. destruct H as (z1 & Ez1 & H). apply bind_ok in H. destruct H as (g2 & Eg2 & H).
  apply bind_ok in H. destruct H as (z2 & Ez2 & H).
  assert (K : exists o, gen_zernikes (if fcm then arange 5 (maxNoll + 1) else arange 4 (maxNoll + 1))
     (if fcm then skipn 4 (resize_coef maxNoll cs) else skipn 3 (resize_coef maxNoll cs)) xo yo diam (Z.max h w) = Ok o) by eauto.
  apply gen_zernikes_total in K. destruct K as (_ & K & _).
  assert (0 < h /\ 0 < w).
  { unfold pad_crop in Ez1. apply guard_ok in Ez1. destruct Ez1 as [P1 Ez1]. apply guard_ok in Ez1.
    destruct Ez1 as [P2 _]. apply Z.ltb_lt in P1, P2. auto. }
  split; [|tauto].
  assert (E : forall lo hi, arange lo hi <> [] -> lo < hi).
  { intros lo hi Hn. pose proof (arange_len lo hi) as Hl. destruct (arange lo hi); [congruence|]. cbn in Hl. lia. }
  destruct fcm; apply E in K; lia.
Qed.

Lemma front_inv ops useDMs useFCM high amp ph diam xo yo dm1 dm2 p s :
  flatten_front ops useDMs useFCM high amp ph diam xo yo dm1 dm2 p = Ok s ->
  let h := map_h dm1 dm2 in let w := map_w dm1 dm2 in
  exists ampIn v, pad_crop ph [h; w] 0%R = Ok (s_wfeIn s) /\ pad_crop amp [h; w] 0%R = Ok ampIn /\
    ampthresh ampIn (f_nBin p) = Ok (s_usable s) /\
    fit_zernikes (fo_lstsq ops) (s_wfeIn s) (amap b2r (s_usable s)) (f_maxNoll p) diam xo yo = Ok v /\
    s_coef s = map v (zrange (f_maxNoll p)) /\
    gen_split_wfe useFCM (f_maxNoll p) (s_coef s) diam h w xo yo = Ok (s_z1to3 s, s_z4 s, s_z s) /\
    s_above s = above_zmax (s_wfeIn s) (s_z s) (s_z4 s) (s_z1to3 s) (s_usable s) /\
    (s_phase1 s, s_phase2 s) = dm_phases (fo_fmin ops) useDMs high
       (dm_size (c_nact dm1) (c_ppact_cy dm1)) (dm_size (c_nact dm1) (c_ppact_cx dm1))
       (dm_size (c_nact dm2) (c_ppact_cy dm2)) (dm_size (c_nact dm2) (c_ppact_cx dm2))
       (s_z s) (s_above s) (s_usable s) /\
    (useDMs = false -> 0 <= dm_size (c_nact dm1) (c_ppact_cy dm1) /\ 0 <= dm_size (c_nact dm1) (c_ppact_cx dm1) /\
       0 <= dm_size (c_nact dm2) (c_ppact_cy dm2) /\ 0 <= dm_size (c_nact dm2) (c_ppact_cx dm2)) /\
    let n := ceil_odd (f_arrayExtFac p * diam) in
    pad_crop (s_usable s) [n; n] false = Ok (s_crop s) /\
    desired_surface (fo_kernel ops) high (f_nIterSmooth p) n (s_crop s) (c_ppact_cx dm1) (c_ppact_cy dm1)
      (s_phase1 s) = Ok (s_surf1 s) /\
    desired_surface (fo_kernel ops) high (f_nIterSmooth p) n (s_crop s) (c_ppact_cx dm2) (c_ppact_cy dm2)
      (s_phase2 s) = Ok (s_surf2 s).
Proof.
  intros H h w. unfold flatten_front in H. cbv zeta in H.
  fold (map_h dm1 dm2) (map_w dm1 dm2) in H.
  change (Z.max (dm_size (c_nact dm1) (c_ppact_cy dm1)) (dm_size (c_nact dm2) (c_ppact_cy dm2))) with h in H.
  change (Z.max (dm_size (c_nact dm1) (c_ppact_cx dm1)) (dm_size (c_nact dm2) (c_ppact_cx dm2))) with w in H.
  do 4 (apply guard_ok in H; destruct H as [_ H]).
  apply bind_ok in H. destruct H as (wfeIn & E1 & H). apply bind_ok in H. destruct H as (ampIn & E2 & H).
  apply bind_ok in H. destruct H as (usable & E3 & H). apply bind_ok in H. destruct H as (v & E4 & H).
  apply bind_ok in H. destruct H as ([[z13 z4] z] & E5 & H).
  apply guard_ok in H. destruct H as [G H].
  apply bind_ok in H. destruct H as (crop & E6 & H). apply bind_ok in H. destruct H as (s1 & E7 & H).
  apply bind_ok in H. destruct H as (s2 & E8 & H). injection H as <-. cbn [s_wfeIn s_usable s_coef s_z1to3 s_z4 s_z
    s_above s_phase1 s_phase2 s_crop s_surf1 s_surf2].
  exists ampIn, v. rewrite <- surjective_pairing. do 8 (split; [auto; fail|]). split; auto.
  intros ->. cbn [orb] in G. rewrite !andb_true_iff, !Z.leb_le in G. tauto.
Qed.

Section Front.
Variables (ops : flatten_ops) (useDMs useFCM high : bool) (amp ph : arr R) (diam xo yo : R)
  (dm1 dm2 : dm_config) (p : flatten_params) (s : flatten_state) (Zf : Z -> R -> R -> R).
Hypothesis HF : flatten_front ops useDMs useFCM high amp ph diam xo yo dm1 dm2 p = Ok s.
Hypothesis Wa : wf amp.
Hypothesis Wp : wf ph.
Hypothesis HN : Z.max (map_h dm1 dm2) (map_w dm1 dm2) <> 1000000.
Hypothesis HZ : is_mode_fun (diam / 2) Zf.
Local Notation h := (map_h dm1 dm2).
Local Notation w := (map_w dm1 dm2).
Local Notation mx := (f_maxNoll p).

Lemma front_shapes : 0 < h /\ 0 < w /\ (0 < diam)%R /\ (if useFCM then 5 else 4) <= mx /\
  nr (s_wfeIn s) = h /\ nc (s_wfeIn s) = w /\ nr (s_usable s) = h /\ nc (s_usable s) = w /\
  some_usable (s_usable s) /\ nr (s_above s) = h /\ nc (s_above s) = w /\
  (forall i j, 0 <= i < h -> 0 <= j < w -> at2 (s_wfeIn s) i j = at0 ph (i - h / 2 + nr ph / 2) (j - w / 2 + nc ph / 2)).
Proof.
  destruct (front_inv _ _ _ _ _ _ _ _ _ _ _ _ _ HF) as (ampIn & v & E1 & E2 & E3 & E4 & E5 & E6 & E7 & _).
  apply pad_crop_inv in E1, E2; auto.
  destruct E1 as (h1 & w1 & Q1 & Hh & Hw & R1 & R2 & V1). injection Q1 as <- <-.
  destruct E2 as (h1 & w1 & Q2 & _ & _ & R3 & R4 & _). injection Q2 as <- <-.
  apply split_inv in E6. destruct E6 as (M & D & _).
  pose proof (ampthresh_separates _ _ _ E3) as (U1 & U2 & _ & U4 & _).
  pose proof (ampthresh_ok _ _ _ E3) as (lo & hi & H & k & _ & Hmax & _).
  do 4 (split; auto). do 2 (split; auto). do 2 (split; [congruence|]). split.
  { destruct Hmax as [(i & j & Hij & Eq) Hle]. exists i, j. split.
    - unfold in_arr in *. rewrite U1, U2. auto.
    - apply U4; auto. rewrite Eq. split; eauto. }
  rewrite E7. cbn [nr nc above_zmax]. do 2 (split; auto).
Qed.

Lemma front_modes : nr (s_z s) = h /\ nc (s_z s) = w /\ nr (s_z4 s) = h /\ nc (s_z4 s) = w /\
  nr (s_z1to3 s) = h /\ nc (s_z1to3 s) = w /\
  forall r c, 0 <= r < h -> 0 <= c < w -> let x := px_x w xo c in let y := px_x h yo r in
    at2 (s_z1to3 s) r c = band Zf (s_coef s) 1 3 x y /\
    at2 (s_z4 s) r c = (if useFCM then band Zf (s_coef s) 4 4 x y else 0%R) /\
    at2 (s_z s) r c = band Zf (s_coef s) (if useFCM then 5 else 4) mx x y /\
    (at2 (s_z1to3 s) r c + at2 (s_z4 s) r c + at2 (s_z s) r c = band Zf (s_coef s) 1 mx x y)%R /\
    at2 (s_above s) r c = (if at2 (s_usable s) r c then at2 (s_wfeIn s) r c - band Zf (s_coef s) 1 mx x y else 0)%R.
Proof.
  destruct front_shapes as (Hh & Hw & Hd & Hm & _).
  destruct (front_inv _ _ _ _ _ _ _ _ _ _ _ _ _ HF) as (ampIn & v & _ & _ & _ & _ & _ & E6 & E7 & _).
  destruct (split_ok mx (s_coef s) diam h w xo yo Zf HZ Hd Hh Hw HN useFCM Hm)
    as (z13 & z4 & z & E & S1 & S2 & S3 & S4 & S5 & S6 & V).
  rewrite E in E6. injection E6 as -> -> ->. do 6 (split; auto). intros r c Hr Hc.
  destruct (V r c Hr Hc) as (V1 & V2 & V3). cbv zeta. do 3 (split; auto).
  assert (T : (at2 (s_z1to3 s) r c + at2 (s_z4 s) r c + at2 (s_z s) r c = band Zf (s_coef s) 1 mx (px_x w xo c) (px_x h yo r))%R).
  { rewrite V1, V2, V3. destruct useFCM.
    - rewrite (band_split Zf (s_coef s) 1 3 4), (band_split Zf (s_coef s) 1 4 mx) by lia. reflexivity.
    - rewrite Rplus_0_r. apply band_split; lia. }
  split; auto. rewrite E7. unfold above_zmax; cbn [at2]. rewrite <- T.
  destruct (at2 (s_usable s) r c); ring.
Qed.

Lemma front_phases : 
  (useDMs = true -> nr (s_phase1 s) = h /\ nc (s_phase1 s) = w /\ nr (s_phase2 s) = h /\ nc (s_phase2 s) = w) /\
  (useDMs = true -> high = true -> exists alpha,
     alpha = split_fraction (fo_fmin ops) (s_z s) (s_above s) (s_usable s) /\
     (bounded_fmin (fo_fmin ops) -> (0 <= alpha <= 1)%R) /\
     forall r c, 0 <= r < h -> 0 <= c < w ->
       at2 (s_phase1 s) r c = (alpha * at2 (s_z s) r c + at2 (s_above s) r c)%R /\
       at2 (s_phase2 s) r c = ((1 - alpha) * at2 (s_z s) r c)%R) /\
  (useDMs = true -> high = false -> forall r c, 0 <= r < h -> 0 <= c < w ->
     at2 (s_phase1 s) r c = (at2 (s_z s) r c / 2)%R /\ at2 (s_phase2 s) r c = (at2 (s_z s) r c / 2)%R) /\
  (useDMs = false -> wf (s_phase1 s) /\ wf (s_phase2 s) /\ forall r c, at2 (s_phase1 s) r c = 0%R /\ at2 (s_phase2 s) r c = 0%R).
Proof.
  destruct front_shapes as (Hh & Hw & _).
  destruct front_modes as (S1 & S2 & _ & _ & _ & _ & V).
  destruct (front_inv _ _ _ _ _ _ _ _ _ _ _ _ _ HF) as (ampIn & v & _ & _ & _ & _ & _ & _ & _ & E8 & E9 & _).
  unfold dm_phases in E8. split; [|split; [|split]].
  - intros ->. destruct high; injection E8 as -> ->; cbn; auto.
  - intros -> ->. injection E8 as -> ->. eexists. split; [reflexivity|]. split.
    + intros B. unfold split_fraction. destruct (rms _); [|lra]. destruct (rms _); [|lra].
      destruct (Rltb _ _); [|lra]. apply B. lra.
    + intros r c Hr Hc. cbn [at2 amap]. split; auto.
      destruct (V r c Hr Hc) as (_ & _ & _ & _ & V5). cbv zeta in V5. rewrite V5.
      destruct (at2 (s_usable s) r c); ring.
  - intros -> ->. injection E8 as -> ->. intros r c Hr Hc. cbn. lra.
  - intros ->. injection E8 as -> ->. specialize (E9 eq_refl). unfold wf; cbn. repeat split; tauto.
Qed.

Lemma front_wf_phases : wf (s_phase1 s) /\ wf (s_phase2 s).
Proof.
  destruct front_shapes as (Hh & Hw & _). destruct front_phases as (A & _ & _ & B).
  destruct useDMs.
  - destruct (A eq_refl) as (A1 & A2 & A3 & A4). unfold wf. lia.
  - destruct (B eq_refl) as (B1 & B2 & _). auto.
Qed.

(** Surfaces at the illuminated pixels of the crop. *)
Lemma front_surfaces : let n := ceil_odd (f_arrayExtFac p * diam) in
  nr (s_surf1 s) = n /\ nc (s_surf1 s) = n /\ nr (s_surf2 s) = n /\ nc (s_surf2 s) = n /\
  (useDMs = true -> forall i j r c, 0 <= i < n -> 0 <= j < n -> r = i - n / 2 + h / 2 -> c = j - n / 2 + w / 2 ->
     0 <= r < h -> 0 <= c < w -> at2 (s_usable s) r c = true ->
     at2 (s_surf1 s) i j = (at2 (s_phase1 s) r c / 2)%R /\ at2 (s_surf2 s) i j = (at2 (s_phase2 s) r c / 2)%R).
Proof.
  intros n. destruct front_shapes as (Hh & Hw & _ & _ & _ & _ & U1 & U2 & _).
  destruct front_wf_phases as [W1 W2]. destruct front_phases as (A & _).
  destruct (front_inv _ _ _ _ _ _ _ _ _ _ _ _ _ HF) as (ampIn & v & _ & _ & _ & _ & _ & _ & _ & _ & _ & C1 & C2 & C3).
  fold n in C1, C2, C3.
  apply surface_ok in C2, C3; auto.
  destruct C2 as (p1 & lo1 & hi1 & P1 & S1 & S2 & _ & _ & K1 & _).
  destruct C3 as (p2 & lo2 & hi2 & P2 & S3 & S4 & _ & _ & K2 & _).
  apply pad_crop_inv in C1; [|unfold wf; lia].
  destruct C1 as (n1 & n2 & Q & Hn & _ & D1 & D2 & DV). injection Q as <- <-.
  do 4 (split; auto). intros E i j r c Hi Hj Er Ec Hr Hc Hu. destruct (A E) as (A1 & A2 & A3 & A4).
  assert (X : at2 (s_crop s) i j = true).
  { rewrite DV by auto. rewrite U1, U2, <- Er, <- Ec.
    rewrite (proj2 (in_arrb_spec (s_usable s) r c)); auto. unfold in_arr. lia. }
  apply pad_crop_inv in P1, P2; auto.
  destruct P1 as (n1 & n2 & Q & _ & _ & _ & _ & V1). injection Q as <- <-.
  destruct P2 as (n1 & n2 & Q & _ & _ & _ & _ & V2). injection Q as <- <-.
  rewrite K1, K2; auto; try (unfold in_arr; lia). rewrite V1, V2 by auto.
  rewrite A1, A2, A3, A4, <- Er, <- Ec.
  rewrite (proj2 (in_arrb_spec (s_phase1 s) r c)) by (unfold in_arr; lia).
  rewrite (proj2 (in_arrb_spec (s_phase2 s) r c)) by (unfold in_arr; lia). auto.
Qed.

(** The remainder is orthogonal to the low orders on the usable pixels. *)
Lemma nth_map_zrange (v : Z -> R) n i : 0 <= i < n -> nth (Z.to_nat i) (map v (zrange n)) 0%R = v i.
Proof.
  intros H. unfold zrange. rewrite map_map.
  rewrite (nth_indep _ 0%R (v (Z.of_nat 0))) by (rewrite map_length, seq_length; lia).
  rewrite (map_nth (fun x => v (Z.of_nat x)) (seq 0 (Z.to_nat n)) 0%nat). rewrite seq_nth by lia. f_equal. lia.
Qed.
Lemma front_orthogonal : is_lstsq_oracle (fo_lstsq ops) ->
  use_sum (s_usable s) (fun r c => at2 (s_above s) r c * at2 (s_z s) r c)%R = 0%R.
Proof.
  intros O. destruct front_shapes as (Hh & Hw & Hd & Hm & F1 & F2 & U1 & U2 & _).
  destruct front_modes as (S1 & S2 & _ & _ & _ & _ & V).
  destruct (front_inv _ _ _ _ _ _ _ _ _ _ _ _ _ HF) as (ampIn & v & _ & _ & _ & E4 & E5 & _).
  destruct (fit_orthogonal (fo_lstsq ops) O (s_wfeIn s) (amap b2r (s_usable s)) mx diam xo yo
     ltac:(cbn; congruence) ltac:(cbn; congruence) ltac:(destruct useFCM; lia) Hd Zf HZ) as (v' & E & Hort & _).
  rewrite E4 in E. injection E as <-.
  assert (UB : forall f, usable_sum (amap b2r (s_usable s)) f = use_sum (s_usable s) f).
  { intros f. unfold usable_sum, use_sum. cbn [nr nc amap at2]. apply rsum2_ext. intros i j _ _.
    unfold b2r. destruct (at2 (s_usable s) i j); destruct (Req_EM_T _ _); auto; lra. }
  assert (BC : forall a b r c, 1 <= a -> b <= mx -> 0 <= r < h -> 0 <= c < w ->
     band Zf (s_coef s) a b (px_x w xo c) (px_x h yo r)
     = rsum (fun i => v (a + i - 1)%Z * mode_at Zf xo yo (s_wfeIn s) (a + i) r c)%R (b - a + 1)).
  { intros a b r c Ha Hb Hr Hc. unfold band. rewrite E5. apply rsum_ext. intros i Hi.
    rewrite nth_map_zrange by lia. unfold mode_at, px_x. rewrite F1, F2. reflexivity. }
  assert (MC : forall r c, 0 <= r < h -> 0 <= c < w ->
     band Zf (s_coef s) 1 mx (px_x w xo c) (px_x h yo r) = mode_comb mx Zf xo yo (s_wfeIn s) v r c).
  { intros r c Hr Hc. rewrite BC by (auto; lia). unfold mode_comb. replace (mx - 1 + 1) with mx by lia.
    apply rsum_ext. intros k _. replace (1 + k - 1) with k by lia. rewrite Z.add_comm. reflexivity. }
  set (b := if useFCM then 5 else 4) in *.
  rewrite (use_sum_ext _ _ (fun r c => rsum (fun i => v (b + i - 1)%Z * (mode_at Zf xo yo (s_wfeIn s) (b + i) r c *
      (at2 (s_wfeIn s) r c - mode_comb mx Zf xo yo (s_wfeIn s) v r c))) (mx - b + 1))%R).
  - unfold use_sum.
    transitivity (rsum (fun i => v (b + i - 1)%Z * use_sum (s_usable s) (fun r c =>
        mode_at Zf xo yo (s_wfeIn s) (b + i) r c * (at2 (s_wfeIn s) r c - mode_comb mx Zf xo yo (s_wfeIn s) v r c)))%R
        (mx - b + 1)).
    + fold (use_sum (s_usable s) (fun r c => rsum (fun i => v (b + i - 1)%Z * (mode_at Zf xo yo (s_wfeIn s) (b + i) r c *
      (at2 (s_wfeIn s) r c - mode_comb mx Zf xo yo (s_wfeIn s) v r c))) (mx - b + 1))%R).
      rewrite use_sum_pts. rewrite lsum_rsum. apply rsum_ext. intros i _. rewrite use_sum_pts, <- lsum_scal.
      reflexivity.
    + apply rsum_all_zero. intros i Hi. specialize (Hort (b + i - 1)).
      replace (b + i - 1 + 1) with (b + i) in Hort by lia. rewrite <- UB, Hort; [ring|].
      unfold b in *. destruct useFCM; lia.
  - intros r c [Hr Hc] Hu. rewrite U1 in Hr. rewrite U2 in Hc.
    destruct (V r c Hr Hc) as (_ & _ & V3 & _ & V5). cbv zeta in V3, V5. rewrite V5, V3, Hu, MC by auto.
    fold b. rewrite BC by (auto; unfold b; destruct useFCM; lia). rewrite Rmult_comm.
    rewrite <- rsum_scal_r. apply rsum_ext. intros; ring.
Qed.

Lemma front_balanced rz ra : exact_fmin (fo_fmin ops) -> is_lstsq_oracle (fo_lstsq ops) -> useDMs = true -> high = true ->
  rms_on (s_usable s) (at2 (s_z s)) rz -> rms_on (s_usable s) (at2 (s_above s)) ra ->
  ((ra < rz)%R -> exists r, rms_on (s_usable s) (at2 (s_phase1 s)) r /\ rms_on (s_usable s) (at2 (s_phase2 s)) r) /\
  ((rz <= ra)%R -> (forall r c, 0 <= r < h -> 0 <= c < w ->
       at2 (s_phase1 s) r c = at2 (s_above s) r c /\ at2 (s_phase2 s) r c = at2 (s_z s) r c) /\
     forall alpha r1 r2, (0 <= alpha <= 1)%R ->
       rms_on (s_usable s) (fun i j => at2 (s_above s) i j + alpha * at2 (s_z s) i j)%R r1 ->
       rms_on (s_usable s) (fun i j => (1 - alpha) * at2 (s_z s) i j)%R r2 -> ((ra - rz) ^ 2 <= (r1 - r2) ^ 2)%R).
Proof.
  intros Hmin O E1 E2 Rz Ra.
  destruct front_shapes as (Hh & Hw & Hd & Hm & F1 & F2 & U1 & U2 & U & A1 & A2 & _).
  destruct front_modes as (S1 & S2 & _).
  destruct front_phases as (P1 & P2 & _). destruct (P1 E1) as (P3 & P4 & P5 & P6).
  destruct (P2 E1 E2) as (alpha & Ea & _ & PV).
  assert (SF : split_fraction (fo_fmin ops) (s_z s) (s_above s) (s_usable s) =
     if Rltb ra rz then fo_fmin ops (fun alpha => phase_cost_function alpha (s_z s) (s_above s) (s_usable s)) 0%R 1%R else 0%R).
  { unfold split_fraction. rewrite !(select_pts (s_usable s)) by congruence.
    destruct (rms_pts_some (s_usable s) (fun p => at2 (s_z s) (fst p) (snd p)) U) as [q1 Q1].
    destruct (rms_pts_some (s_usable s) (fun p => at2 (s_above s) (fst p) (snd p)) U) as [q2 Q2].
    rewrite Q1, Q2. apply rms_pts in Q1, Q2. cbn [fst snd] in Q1, Q2.
    rewrite (rms_on_unique _ _ _ _ U (proj1 Q1) Rz), (rms_on_unique _ _ _ _ U (proj1 Q2) Ra). reflexivity. }
  rewrite SF in Ea. clear SF. split.
  - intros L. rewrite (proj2 (Rltb_iff ra rz) L) in Ea.
    set (f := fun alpha => phase_cost_function alpha (s_z s) (s_above s) (s_usable s)) in *.
    destruct (balanced _ _ _ U _ _ Rz Ra L) as (a0 & Ha0 & Eq & _).
    assert (C0 : f a0 = Ok (Some 0%R)).
    { unfold f. destruct (cost_ok a0 (s_z s) (s_above s) (s_usable s)) as (r1 & r2 & Ec & B1 & B2); try congruence; auto; [lra|].
      destruct Eq as (r & D1 & D2). rewrite Ec, (rms_on_unique _ _ _ _ U B1 D1), (rms_on_unique _ _ _ _ U B2 D2).
      do 2 f_equal. ring. }
    assert (M0 : minimises f 0%R 1%R a0).
    { split; [lra|]. intros c Hc y d Hy Hd'. rewrite C0 in Hc. injection Hc as <-.
      unfold f in Hd'. destruct (cost_ok y (s_z s) (s_above s) (s_usable s)) as (r1 & r2 & Ec & _); try congruence; auto.
      rewrite Ec in Hd'. injection Hd' as <-. apply pow2_ge_0. }
    destruct (Hmin f 0%R 1%R ltac:(lra) (ex_intro _ a0 M0)) as [Hb Hm'].
    rewrite <- Ea in Hb, Hm'.
    destruct (cost_ok alpha (s_z s) (s_above s) (s_usable s)) as (r1 & r2 & Ec & B1 & B2); try congruence; auto.
    pose proof (Hm' _ Ec a0 0%R ltac:(lra) C0) as K.
    assert (r1 = r2) by (pose proof (pow2_ge_0 (r1 - r2)); nra). subst r2. exists r1.
    assert (X : forall f g r, (forall i j, in_arr (s_usable s) i j -> f i j = g i j) -> rms_on (s_usable s) f r -> rms_on (s_usable s) g r).
    { intros f0 g0 r H [Y1 Y2]. split; auto. rewrite Y2. apply use_sum_ext. intros; rewrite H; auto. }
    split; [eapply X; [|exact B1]|eapply X; [|exact B2]]; intros i j [Hi Hj]; cbv beta;
    rewrite U1 in Hi; rewrite U2 in Hj; destruct (PV i j Hi Hj) as [Q1 Q2]; rewrite ?Q1, ?Q2; ring.
  - intros L. rewrite (proj2 (Rltb_false ra rz) L) in Ea. split.
    + intros r c Hr Hc. destruct (PV r c Hr Hc) as [-> ->]. rewrite Ea. split; ring.
    + intros al r1 r2 Hal B1 B2. eapply zero_best; eauto. apply front_orthogonal; auto.
Qed.
End Front.
