(** fit_z_induced_spm_shear. *)
From Coq Require Import ZArith Bool List Reals Lra Lia String FunctionalExtensionality.
From Flocq Require Import Core.
From Coquelicot Require Import Complex.
From Verif.Base Require Import Py Arr Vec Sums CSum Lstsq.
From Verif.Model Require Import Yaml Math Noll Fits PadCrop PsfFit Unwrap PupilUtil PupilFit MaskFit.
From Verif.Spec Require Import FitsSpec PsfFitSpec UnwrapSpec PupilUtilSpec DmRegSpec MaskFitSpec.
From Verif.Proofs Require Import MathP PadCropP FitsP DarkHoleP PsfFitP UnwrapP PupilUtilP DmRegP PupilFitP.
Import ListNotations.
Open Scope list_scope.
Open Scope Z_scope.

(** ** Flattening *)
Lemma flattened_plane m a b s p0 q0 r0 : (forall i j, on m (i, j) -> b i j = a i j + plane_at p0 q0 r0 i j)%R -> flattened m a s -> flattened m b s.
Proof.
  intros E (Sh & p & q & r & Mn & V).
  assert (Err : forall x y z, masked_sum (zero_one_of m) (fun i j => (b i j - plane_at (x + p0) (y + q0) (z + r0) i j) ^ 2)%R =
    masked_sum (zero_one_of m) (fun i j => (a i j - plane_at x y z i j) ^ 2)%R).
  { intros x y z. apply masked_ext. intros i j I N. rewrite E; [unfold plane_at; ring|]. split; [exact I|]. cbn in N. cbn [fst snd]. destruct (at2 m i j); [reflexivity|contradiction]. }
  split; [exact Sh|]. exists (p + p0)%R, (q + q0)%R, (r + r0)%R. split.
  - intros p' q' r'. rewrite Err. replace p' with (p' - p0 + p0)%R by ring. replace q' with (q' - q0 + q0)%R by ring. replace r' with (r' - r0 + r0)%R by ring. rewrite Err. apply Mn.
  - intros i j I. rewrite V by exact I. destruct (at2 m i j) eqn:M; [|reflexivity]. rewrite E by (split; auto). unfold plane_at. ring.
Qed.
Lemma flattened_unique m a s t : flattened m a s -> flattened m a t -> aeq s t.
Proof.
  intros (S1 & p & q & r & M1 & V1) (S2 & p' & q' & r' & M2 & V2). apply same_shape_iff in S1 as [A1 A2], S2 as [B1 B2].
  split; [congruence|]. split; [congruence|]. intros i j I0. assert (I : in_arr m i j) by (unfold in_arr in *; rewrite <- A1, <- A2; exact I0).
  rewrite V1, V2 by exact I. destruct (at2 m i j) eqn:M; [|reflexivity]. set (d i j := (plane_at p q r i j - plane_at p' q' r' i j)%R).
  assert (Z0 : masked_sum (zero_one_of m) (fun i j => d i j ^ 2)%R = 0%R).
  { apply Rle_antisym; [|apply rsum2_nonneg; intros; destruct (Req_EM_T _ _); [lra|apply pow2_ge_0]].
    pose proof (M1 ((p + p') / 2) ((q + q') / 2) ((r + r') / 2))%R as H. pose proof (M1 p' q' r') as K1. pose proof (M2 p q r) as K2.
    set (ea := masked_sum (zero_one_of m) (fun i j => (a i j - plane_at p q r i j) ^ 2)%R) in *.
    set (eb := masked_sum (zero_one_of m) (fun i j => (a i j - plane_at p' q' r' i j) ^ 2)%R) in *.
    assert (Q : masked_sum (zero_one_of m) (fun i j => (a i j - plane_at ((p + p') / 2) ((q + q') / 2) ((r + r') / 2) i j) ^ 2)%R =
      (/ 2 * ea + (/ 2 * eb + - / 4 * masked_sum (zero_one_of m) (fun i j => d i j ^ 2)%R))%R).
    { unfold ea, eb. rewrite <- !masked_scal, <- !masked_add. apply masked_ext. intros. unfold d, plane_at. field. }
    rewrite Q in H. lra. }
  assert (D : (d i j ^ 2 = 0)%R).
  { apply (masked_nonneg_zero (zero_one_of m) (fun i j => d i j ^ 2)%R); auto; [intros; apply pow2_ge_0|]. cbn. rewrite M. lra. }
  unfold d in D. assert (plane_at p q r i j - plane_at p' q' r' i j = 0)%R by nra. lra.
Qed.
Lemma moved_sum m m' dy dx (f : Z -> Z -> R) : moved_mask m dy dx m' ->
  masked_sum (zero_one_of m') f = masked_sum (zero_one_of m) (fun i j => f (i + dy) (j + dx)).
Proof.
  intros (E1 & E2 & V). unfold masked_sum. cbn [zero_one_of amap nr nc at2]. rewrite E1, E2.
  destruct (Z_lt_le_dec 0 (nr m)) as [Hn|Hn]; [|rewrite !rsum2_all_zero; auto; intros; lia].
  destruct (Z_lt_le_dec 0 (nc m)) as [Hm|Hm]; [|rewrite !rsum2_all_zero; auto; intros; lia].
  rewrite <- (FitsP.rsum2_roll _ (nr m) (nc m) dy dx) by auto. apply rsum2_ext. intros i j Hi Hj.
  assert (Q : forall k l, in_arr m' k l -> (at2 m' k l = true <-> on m (k - dy, l - dx))).
  { intros k l I. rewrite <- V. replace (k - dy + dy) with k by lia. replace (l - dx + dx) with l by lia. unfold on. cbn [fst snd]. tauto. }
  assert (Iw : in_arr m' ((i + dy) mod nr m) ((j + dx) mod nc m)) by (split; rewrite ?E1, ?E2; apply Z.mod_pos_bound; lia).
  specialize (Q _ _ Iw). destruct (at2 m i j) eqn:M.
  - assert (O : on m (i, j)) by (split; [split; auto|exact M]). apply V in O. destruct O as [[O1 O2] O3]. cbn [fst snd] in *. rewrite E1 in O1. rewrite E2 in O2.
    rewrite !Z.mod_small by auto. rewrite O3. reflexivity.
  - destruct (at2 m' ((i + dy) mod nr m) ((j + dx) mod nc m)) eqn:M'; [|destruct (Req_EM_T 0 0); congruence || reflexivity].
    destruct (proj1 Q eq_refl) as [[O1 O2] O3]. cbn [fst snd] in *.
    assert (W : forall n a b, 0 < n -> 0 <= a < n -> 0 <= (a + b) mod n - b < n -> (a + b) mod n - b = a).
    { intros n a b Hn0 Ha H. pose proof (Z.div_mod (a + b) n ltac:(lia)). set (z := (a + b) / n) in *. assert (z = 0) by nia. subst z. nia. }
    rewrite (W (nr m) i dy), (W (nc m) j dx) in O3 by auto. congruence.
Qed.
(** Moving the mask and the field moves the flattened field. *)
Lemma flattened_moved m m' dy dx a s s' : 0 < nr m -> 0 < nc m -> moved_mask m dy dx m' -> flattened m a s -> flattened m' (fun i j => a (i - dy) (j - dx)) s' ->
  zero_fill_shift s 1 dy dx s' /\ stays_in_frame s dy dx.
Proof.
  intros Hn Hm Mv F F'. pose proof Mv as (E1 & E2 & V). pose proof F as (Sh & p & q & r & Mn & W). apply same_shape_iff in Sh as [A1 A2].
  pose proof F' as (Sh' & _). apply same_shape_iff in Sh' as [B1 B2].
  set (t := Arr (nr m') (nc m') (fun i j => if in_arrb s (i - dy) (j - dx) then at2 s (i - dy) (j - dx) else 0%R)).
  assert (Err : forall x y z : R, masked_sum (zero_one_of m') (fun i j => (a (i - dy)%Z (j - dx)%Z - plane_at x y z i j) ^ 2)%R =
    masked_sum (zero_one_of m) (fun i j => (a i j - plane_at x y ((z + x * IZR dx) + y * IZR dy) i j) ^ 2)%R).
  { intros x y z. rewrite (moved_sum m m' dy dx _ Mv). apply masked_ext. intros i j _ _. rewrite !Z.add_simpl_r. unfold plane_at. rewrite !plus_IZR. ring. }
  assert (T : flattened m' (fun i j => a (i - dy) (j - dx)) t).
  { split; [apply same_shape_iff; auto|]. exists p, q, (r - p * IZR dx - q * IZR dy)%R. split.
    - intros p' q' r'. rewrite !Err. replace (r - p * IZR dx - q * IZR dy + p * IZR dx + q * IZR dy)%R with r by ring. apply Mn.
    - intros i j I. cbn [t at2]. destruct (at2 m' i j) eqn:M'.
      + assert (O : on m (i - dy, j - dx)). { apply V. rewrite !Z.sub_add. split; auto. } destruct O as [O1 O2]. cbn [fst snd] in *.
        rewrite (proj2 (in_arrb_spec s _ _)) by (unfold in_arr in *; rewrite A1, A2; exact O1). rewrite W, O2 by exact O1. unfold plane_at. rewrite !minus_IZR. ring.
      + destruct (in_arrb s (i - dy) (j - dx)) eqn:B; [|reflexivity]. apply in_arrb_spec in B.
        assert (I' : in_arr m (i - dy) (j - dx)) by (unfold in_arr in *; rewrite A1, A2 in B; exact B). rewrite W by exact I'.
        destruct (at2 m (i - dy) (j - dx)) eqn:M; [|reflexivity]. assert (O : on m (i - dy, j - dx)) by (split; auto).
        apply V in O. rewrite !Z.sub_add in O. destruct O as [_ O]. cbn [fst snd] in O. congruence. }
  destruct (flattened_unique _ _ _ _ F' T) as (_ & _ & U). split.
  - split; [congruence|]. split; [congruence|]. intros i j I. rewrite U by exact I. cbn [t at2]. ring.
  - intros i j I O. assert (I' : in_arr m i j) by (unfold in_arr in *; rewrite A1, A2 in I; exact I). rewrite W by exact I'.
    destruct (at2 m i j) eqn:M; [|reflexivity]. exfalso. apply O. assert (O' : on m (i, j)) by (split; auto). apply V in O' as [O' _]. cbn [fst snd] in O'.
    unfold in_arr in *. rewrite A1, A2, <- E1, <- E2. exact O'.
Qed.

(** ** The function *)
Section Shear.
Variables (shift : arr R -> R -> R -> arr R) (lstsq : lstsq_fun) (up : unwrap_fun) (small : small_fun).
Local Notation fit := (fit_z_induced_spm_shear shift lstsq up small).
Local Notation poke := (poke_map lstsq up small).

Lemma bc_same n : bc_size n n = Ok n. Proof. unfold bc_size. rewrite Z.eqb_refl. reflexivity. Qed.
Lemma bc_index n i : 0 <= i < n -> bc_idx n i = i.
Proof. intros H. unfold bc_idx. destruct (Z.eqb_spec n 1); lia. Qed.
Lemma broadcast_same f a b : nr b = nr a -> nc b = nc a -> exists d, broadcast f a b = Ok d /\ nr d = nr a /\ nc d = nc a /\
  forall i j, in_arr a i j -> at2 d i j = f (at2 a i j) (at2 b i j).
Proof.
  intros E1 E2. unfold broadcast. rewrite E1, E2, !bc_same. cbn [bind]. eexists. split; [reflexivity|]. split; [reflexivity|]. split; [reflexivity|].
  intros i j [I1 I2]. cbn [at2]. rewrite !bc_index by auto. reflexivity.
Qed.
Hypothesis O : is_lstsq_oracle lstsq.
Hypothesis U : is_unwrapper up.
Hypothesis Sm : is_remove_small small.
Lemma poke_parts amp unp pok s m : nr unp = nr amp -> nc unp = nc amp -> nr pok = nr amp -> nc pok = nc amp -> poke amp unp pok = Ok (s, m) ->
  exists d u, broadcast Rminus pok unp = Ok d /\ nr d = nr amp /\ nc d = nc amp /\ (forall i j, in_arr amp i j -> at2 d i j = at2 pok i j - at2 unp i j)%R /\
    unwrap up small d amp 21 0 64 true None = Ok (u, m) /\ nr u = nr amp /\ nc u = nc amp /\ nr m = nr amp /\ nc m = nc amp /\ mask_used amp amp 21 64 true None m /\
    (forall i j, on m (i, j) -> congruent (at2 pok i j - at2 unp i j) (at2 u i j)) /\ flattened m (at2 u) s.
Proof.
  intros E1 E2 E3 E4 H. unfold poke_map in H. destruct (broadcast_same Rminus pok unp) as (d & Ed & D1 & D2 & D3); [congruence..|].
  rewrite Ed in H. cbn [bind] in H. apply bind_ok in H as ([u m'] & Eu & H). apply bind_ok in H as (f & Ef & H). injection H as <- <-. cbn [fst snd] in *.
  pose proof (unwrap_ok up small U Sm _ _ _ _ _ _ _ _ _ Eu) as (Su & Sq & Mu & _ & Cg). apply same_shape_iff in Su as [U1 U2]. apply same_shape_iff in Sq as [M1 M2].
  exists d, u. split; [exact Ed|]. split; [congruence|]. split; [congruence|]. split; [intros i j I; apply D3; unfold in_arr in *; rewrite E3, E4; exact I|].
  split; [exact Eu|]. do 4 (split; [congruence|]). split; [|split].
  - cbn in Mu |- *. rewrite D1, D2 in Mu. destruct Mu as (Q1 & Q2 & t & Et & Q3). split; [congruence|]. split; [congruence|]. exists t. split; [exact Et|].
    intros i j I. apply Q3. unfold in_arr in *. rewrite D1, D2, E3, E4. exact I.
  - intros i j [I M]. cbn [fst snd] in I, M. assert (I' : in_arr d i j) by (unfold in_arr in *; rewrite <- M1, <- M2; exact I).
    rewrite <- D3 by (unfold in_arr in *; rewrite <- D1, <- D2; exact I'). apply Cg; auto.
  - apply (flatten_ok lstsq); auto. apply same_shape_iff. split; congruence.
Qed.
Lemma poke_shows amp unp pok s m psi : nr unp = nr amp -> nc unp = nc amp -> nr pok = nr amp -> nc pok = nc amp -> poke amp unp pok = Ok (s, m) ->
  one_piece m -> gentle m psi -> shows m unp pok psi -> flattened m psi s.
Proof.
  intros E1 E2 E3 E4 H J G W. destruct (poke_parts _ _ _ _ _ E1 E2 E3 E4 H) as (d & u & _ & D1 & D2 & D3 & Eu & _ & _ & M1 & M2 & _ & _ & F).
  assert (Wr : wrapped_of m psi d).
  { intros i j I. pose proof I as [I' _]. cbn [fst snd] in I'. rewrite D3 by (unfold in_arr in *; rewrite <- M1, <- M2; exact I'). apply W, I. }
  destruct (existsb (fun b => b) (elements m)) eqn:Ex.
  - apply existsb_exists in Ex as (b & I & Hb). apply in_elements in I as (i & j & I & Eb). subst b.
    assert (On : on m (i, j)) by (split; auto). destruct (unwrap_exact up small U Sm _ _ _ _ _ _ _ _ _ _ Eu G Wr (i, j) On) as (k & K).
    apply (flattened_plane m (at2 u) psi s 0 0 (- (2 * PI * IZR k))); [|exact F]. intros a b Ob. pose proof (K (a, b) (J _ _ On Ob)) as Q. cbn [fst snd] in Q. rewrite Q. unfold plane_at. ring.
  - apply (flattened_plane m (at2 u) psi s 0 0 0); [|exact F]. intros a b [I M]. cbn [fst snd] in *. assert (In (at2 m a b) (elements m)) by (apply in_elements; eauto).
    exfalso. rewrite <- not_true_iff_false in Ex. apply Ex. apply existsb_exists. eauto.
Qed.
(** [s] times its own mask is [s]. *)
Lemma masked_same (m : arr bool) s a : flattened m a s -> aeq (amap2 Rmult (amap of_bool m) s) s.
Proof.
  intros (Sh & p & q & r & _ & V). apply same_shape_iff in Sh as [S1 S2]. split; [cbn; congruence|]. split; [cbn; congruence|].
  intros i j I. cbn [amap2 amap at2] in *. rewrite V by exact I. destruct (at2 m i j); cbn; ring.
Qed.
Lemma shear_inv a0 u0 p0 a1 u1 p1 cfg x y : fit a0 u0 p0 a1 u1 p1 cfg = Ok (x, y) ->
  nr u0 = nr a0 /\ nc u0 = nc a0 /\ nr p0 = nr a0 /\ nc p0 = nc a0 /\ nr u1 = nr a1 /\ nc u1 = nc a1 /\ nr p1 = nr a0 /\ nc p1 = nc a0 /\
  exists s0 m0 s1 m1 s1' m1' amp, poke a0 u0 p0 = Ok (s0, m0) /\ poke a1 u1 p1 = Ok (s1, m1) /\
    pad_crop s1 [nr a0; nc a0] 0%R = Ok s1' /\ pad_crop m1 [nr a0; nc a0] false = Ok m1' /\
    psffit shift (amap2 Rmult (amap of_bool m0) s0) (amap2 Rmult (amap of_bool m1') s1') cfg = Ok (y, x, amp).
Proof.
  unfold fit_z_induced_spm_shear. intros H. apply guard_ok in H as [G1 H]. apply guard_ok in H as [G2 H]. apply guard_ok in H as [G3 H]. apply guard_ok in H as [G4 H].
  apply same_shape_iff in G1 as [A1 A2], G2 as [A3 A4], G3 as [A5 A6], G4 as [A7 A8]. do 8 (split; [assumption|]).
  apply bind_ok in H as ([s0 m0] & E0 & H). apply bind_ok in H as ([s1 m1] & E1 & H). cbv zeta in H. apply bind_ok in H as (s1' & Es & H). apply bind_ok in H as (m1' & Em & H).
  apply bind_ok in H as ([[y' x'] amp] & Ep & H). cbn [fst snd] in H. injection H as <- <-. cbn [fst snd] in *.
  exists s0, m0, s1, m1, s1', m1', amp. auto.
Qed.
Lemma bc_cases n m r : bc_size n m = Ok r -> (n = m /\ r = n) \/ (n = 1 /\ r = m) \/ (m = 1 /\ r = n).
Proof. unfold bc_size. destruct (Z.eqb_spec n m); [|destruct (Z.eqb_spec n 1); [|destruct (Z.eqb_spec m 1)]]; intros E; try discriminate; injection E as <-; auto. Qed.
Lemma shear_sizes a0 u0 p0 a1 u1 p1 cfg x y : fit a0 u0 p0 a1 u1 p1 cfg = Ok (x, y) ->
  (nr a1 = nr a0 \/ nr a0 = 1) /\ (nc a1 = nc a0 \/ nc a0 = 1).
Proof.
  intros H. destruct (shear_inv _ _ _ _ _ _ _ _ _ H) as (_ & _ & _ & _ & A5 & A6 & A7 & A8 & s0 & m0 & s1 & m1 & s1' & m1' & amp & _ & E1 & _).
  unfold poke_map in E1. apply bind_ok in E1 as (d & Ed & E1). apply bind_ok in E1 as (um & Eu & _).
  assert (A : exists r, unwrap up small d a1 21 0 64 true None = Ok r) by eauto. apply unwrap_accepts in A as (Sh & _). apply same_shape_iff in Sh as [S1 S2].
  unfold broadcast in Ed. apply bind_ok in Ed as (r & Er & Ed). apply bind_ok in Ed as (c & Ec & Ed). injection Ed as <-. cbn [nr nc] in S1, S2. subst r c.
  apply bc_cases in Er, Ec. lia.
Qed.
Lemma shear_same a0 u0 p0 a1 u1 p1 cfg x y : nr a1 = nr a0 -> nc a1 = nc a0 -> fit a0 u0 p0 a1 u1 p1 cfg = Ok (x, y) ->
  0 < nr a0 /\ 0 < nc a0 /\ nr u0 = nr a0 /\ nc u0 = nc a0 /\ nr p0 = nr a0 /\ nc p0 = nc a0 /\ nr u1 = nr a0 /\ nc u1 = nc a0 /\ nr p1 = nr a0 /\ nc p1 = nc a0 /\
  exists s0 m0 s1 m1 t0 t1 amp, poke a0 u0 p0 = Ok (s0, m0) /\ poke a1 u1 p1 = Ok (s1, m1) /\ aeq t0 s0 /\ aeq t1 s1 /\ psffit shift t0 t1 cfg = Ok (y, x, amp).
Proof.
  intros S1 S2 H. destruct (shear_inv _ _ _ _ _ _ _ _ _ H) as (A1 & A2 & A3 & A4 & A5 & A6 & A7 & A8 & s0 & m0 & s1 & m1 & s1' & m1' & amp & E0 & E1 & Es & Em & Ep).
  destruct (poke_parts a0 u0 p0 s0 m0 A1 A2 A3 A4 E0) as (_ & uu1 & _ & _ & _ & _ & _ & _ & _ & Q1 & Q2 & Mu & _ & F0).
  destruct (poke_parts a1 u1 p1 s1 m1 A5 A6 ltac:(congruence) ltac:(congruence) E1) as (_ & uu2 & _ & _ & _ & _ & _ & _ & _ & Q3 & Q4 & _ & _ & F1).
  destruct Mu as (_ & _ & tt & Et & _). destruct (ampthresh_nonempty _ _ _ Et) as (P1 & P2 & _).
  split; [exact P1|]. split; [exact P2|]. do 8 (split; [congruence|]).
  exists s0, m0, s1, m1, (amap2 Rmult (amap of_bool m0) s0), (amap2 Rmult (amap of_bool m1') s1'), amp. split; [exact E0|]. split; [exact E1|].
  split; [exact (masked_same _ _ _ F0)|]. split; [|exact Ep]. eapply aeq_trans; [|exact (masked_same _ _ _ F1)].
  pose proof F1 as (Sh & _). apply same_shape_iff in Sh as [B1 B2].
  replace [nr a0; nc a0] with [nr s1; nc s1] in Es by (f_equal; [congruence|f_equal; congruence]).
  replace [nr a0; nc a0] with [nr m1; nc m1] in Em by (f_equal; [congruence|f_equal; congruence]).
  apply pad_crop_same_lemma in Es as (X1 & X2 & X3); [|unfold wf; lia]. apply pad_crop_same_lemma in Em as (Y1 & Y2 & Y3); [|unfold wf; lia].
  split; [cbn; congruence|]. split; [cbn; congruence|]. intros i j I. cbn [amap2 amap at2] in *. rewrite Y3 by exact I.
  rewrite X3 by (unfold in_arr in *; cbn in I; rewrite X1, X2, B1, B2, <- Y1, <- Y2; exact I). reflexivity.
Qed.
Lemma shear_ok a0 u0 p0 a1 u1 p1 cfg x y : 2 <= nr a0 -> 2 <= nc a0 -> fit a0 u0 p0 a1 u1 p1 cfg = Ok (x, y) ->
  exists s0 s1 amp, poke_signature a0 u0 p0 s0 /\ poke_signature a1 u1 p1 s1 /\ psffit shift s0 s1 cfg = Ok (y, x, amp).
Proof.
  intros N2 M2 H. destruct (shear_sizes _ _ _ _ _ _ _ _ _ H) as [S1 S2]. assert (T1 : nr a1 = nr a0) by lia. assert (T2 : nc a1 = nc a0) by lia.
  destruct (shear_same _ _ _ _ _ _ _ _ _ T1 T2 H) as (P1 & P2 & A1 & A2 & A3 & A4 & A5 & A6 & A7 & A8 & s0 & m0 & s1 & m1 & t0 & t1 & amp & E0 & E1 & B0 & B1 & Ep).
  exists t0, t1, amp. split; [|split; [|exact Ep]].
  - destruct (poke_parts a0 u0 p0 s0 m0 A1 A2 A3 A4 E0) as (_ & u & _ & _ & _ & _ & _ & _ & _ & _ & _ & Mu & Cg & F). exists m0, (at2 u). split; [exact Mu|]. split; [exact Cg|].
    destruct F as (Sh & p & q & r & Mn & V). apply same_shape_iff in Sh as [G1 G2]. destruct B0 as (C1 & C2 & C3). split; [apply same_shape_iff; split; congruence|].
    exists p, q, r. split; [exact Mn|]. intros i j I. rewrite C3 by (unfold in_arr in *; rewrite C1, C2, G1, G2; exact I). apply V, I.
  - destruct (poke_parts a1 u1 p1 s1 m1 ltac:(congruence) ltac:(congruence) ltac:(congruence) ltac:(congruence) E1) as (_ & u & _ & _ & _ & _ & _ & _ & _ & _ & _ & Mu & Cg & F).
    exists m1, (at2 u). split; [exact Mu|]. split; [exact Cg|].
    destruct F as (Sh & p & q & r & Mn & V). apply same_shape_iff in Sh as [G1 G2]. destruct B1 as (C1 & C2 & C3). split; [apply same_shape_iff; split; congruence|].
    exists p, q, r. split; [exact Mn|]. intros i j I. rewrite C3 by (unfold in_arr in *; rewrite C1, C2, G1, G2; exact I). apply V, I.
Qed.
(** The masks in use, whatever the phases. *)
Lemma poke_mask amp unp pok s m m' : nr unp = nr amp -> nc unp = nc amp -> nr pok = nr amp -> nc pok = nc amp -> poke amp unp pok = Ok (s, m) ->
  mask_used amp amp 21 64 true None m' -> aeq m m'.
Proof.
  intros E1 E2 E3 E4 H (M1 & M2 & t & Et & V). destruct (poke_parts _ _ _ _ _ E1 E2 E3 E4 H) as (_ & uu3 & _ & _ & _ & _ & _ & _ & _ & Q1 & Q2 & (_ & _ & t' & Et' & V') & _).
  rewrite Et in Et'. injection Et' as <-. split; [congruence|]. split; [congruence|]. intros i j I.
  assert (I' : in_arr amp i j) by (unfold in_arr in *; rewrite <- Q1, <- Q2; exact I). apply eq_true_iff_eq. rewrite V, V' by exact I'. tauto.
Qed.
Lemma on_aeq m m' p : aeq m m' -> on m p <-> on m' p.
Proof.
  intros (A1 & A2 & A3). unfold on, in_arr. rewrite <- A1, <- A2. split; intros [I M]; (split; [exact I|]); rewrite <- M; [symmetry|]; apply A3; exact I.
Qed.
Lemma flattened_mask m m' a s : aeq m m' -> flattened m a s -> flattened m' a s.
Proof.
  intros A (Sh & p & q & r & Mn & V). pose proof A as (A1 & A2 & A3). apply same_shape_iff in Sh as [S1 S2].
  assert (Err : forall f, masked_sum (zero_one_of m') f = masked_sum (zero_one_of m) f).
  { intros f. unfold masked_sum. cbn [zero_one_of amap nr nc at2]. rewrite <- A1, <- A2. apply rsum2_ext. intros i j Hi Hj. rewrite A3 by (split; auto). reflexivity. }
  split; [apply same_shape_iff; split; congruence|]. exists p, q, r. split.
  - intros. rewrite !Err. apply Mn.
  - intros i j I. rewrite V by (unfold in_arr in *; rewrite A1, A2; exact I). rewrite A3 by (unfold in_arr in *; rewrite A1, A2; exact I). reflexivity.
Qed.
Lemma joined_aeq m m' p q : aeq m m' -> joined m p q -> joined m' p q.
Proof. intros A. apply joined_ext. intros r. apply on_aeq, A. Qed.
Lemma shear_recovers a0 u0 p0 a1 u1 p1 cfg k x y m0 m1 psi s dy dx e f g : fit a0 u0 p0 a1 u1 p1 cfg = Ok (x, y) ->
  mask_used a0 a0 21 64 true None m0 -> mask_used a1 a1 21 64 true None m1 -> one_piece m0 -> moved_mask m0 dy dx m1 ->
  gentle m0 psi -> shows m0 u0 p0 psi ->
  let psi1 i j := (psi (i - dy)%Z (j - dx)%Z + plane_at e f g i j)%R in gentle m1 psi1 -> shows m1 u1 p1 psi1 ->
  flattened m0 psi s -> varies s ->
  read_config cfg = Ok k -> (exists N, 0 < N /\ upsample_factor k = IZR N) -> (pad_factor k <= IZR (nr a0))%R -> (pad_factor k <= IZR (nc a0))%R ->
  - nr a0 <= 2 * dy < nr a0 -> - nc a0 <= 2 * dx < nc a0 -> x = IZR dx /\ y = IZR dy.
Proof.
  intros H Mu0 Mu1 J Mv G W psi1 G1 W1 F Vs Hk HU K1 K2 Dy Dx. pose proof Mv as (V1 & V2 & V3). pose proof Mu0 as (N1 & N2 & _). pose proof Mu1 as (N3 & N4 & _).
  destruct (shear_same a0 u0 p0 a1 u1 p1 cfg x y ltac:(congruence) ltac:(congruence) H) as (P1 & P2 & A1 & A2 & A3 & A4 & A5 & A6 & A7 & A8 & s0 & m0' & s1 & m1' & t0 & t1 & amp & E0 & E1 & B0 & B1 & Ep).
  pose proof (poke_mask a0 u0 p0 s0 m0' m0 A1 A2 A3 A4 E0 Mu0) as Q0.
  pose proof (poke_mask a1 u1 p1 s1 m1' m1 ltac:(congruence) ltac:(congruence) ltac:(congruence) ltac:(congruence) E1 Mu1) as Q1.
  assert (F0 : flattened m0 psi s0).
  { apply (flattened_mask m0' m0); [exact Q0|]. apply (poke_shows a0 u0 p0); auto.
    - intros a b Oa Ob. apply (joined_aeq m0 m0'); [apply aeq_sym, Q0|]. apply J; eapply on_aeq; eauto using aeq_sym.
    - intros a b Oa Ob. apply G; eapply on_aeq; eauto using aeq_sym.
    - intros i j Oi. apply W. eapply on_aeq; eauto using aeq_sym. }
  assert (J1 : one_piece m1).
  { assert (Jm : forall a b, joined m0 a b -> joined m1 (fst a + dy, snd a + dx) (fst b + dy, snd b + dx)).
    { intros a b Hj. induction Hj as [a Oa|a b c Hab IH Ad Oc].
      - constructor. apply V3. destruct a; exact Oa.
      - apply (joined_step _ _ (fst b + dy, snd b + dx)); [exact IH| |apply V3; destruct c; exact Oc]. unfold adjacent in *. cbn [fst snd]. lia. }
    intros [a b] [c d] Oa Oc. replace a with (a - dy + dy) in * by lia. replace b with (b - dx + dx) in * by lia. replace c with (c - dy + dy) in * by lia. replace d with (d - dx + dx) in * by lia.
    apply V3 in Oa, Oc. exact (Jm _ _ (J _ _ Oa Oc)). }
  assert (F1 : flattened m1 psi1 s1).
  { apply (flattened_mask m1' m1); [exact Q1|]. apply (poke_shows a1 u1 p1); auto; try congruence.
    - intros a b Oa Ob. apply (joined_aeq m1 m1'); [apply aeq_sym, Q1|]. apply J1; eapply on_aeq; eauto using aeq_sym.
    - intros a b Oa Ob. apply G1; eapply on_aeq; eauto using aeq_sym.
    - intros i j Oi. apply W1. eapply on_aeq; eauto using aeq_sym. }
  assert (F1' : flattened m1 (fun i j => psi (i - dy) (j - dx)) s1).
  { apply (flattened_plane m1 psi1 _ s1 (- e) (- f) (- g)); [|exact F1]. intros i j _. unfold psi1, plane_at. ring. }
  pose proof (flattened_unique _ _ _ _ F0 F) as Us. destruct (flattened_moved m0 m1 dy dx psi s0 s1) as [Z0 Fr]; auto; try lia.
  assert (Us' : aeq t0 s) by (eapply aeq_trans; [exact B0|exact Us]). pose proof Us' as (S1 & S2 & S3). destruct B0 as (X1 & X2 & X3), B1 as (Y1 & Y2 & Y3). pose proof F0 as (Sh & _). apply same_shape_iff in Sh as [R1 R2].
  assert (Zt : zero_fill_shift t0 1 dy dx t1).
  { destruct Z0 as (Z1 & Z2 & Z3). split; [congruence|]. split; [congruence|]. intros i j I. rewrite Y3 by exact I.
    rewrite Z3 by (unfold in_arr in *; rewrite <- Y1, <- Y2; exact I). unfold in_arrb. rewrite X1, X2.
    match goal with |- context [if ?b then _ else _] => destruct b eqn:B end; [|reflexivity]. rewrite X3; [reflexivity|]. apply in_arrb_spec. unfold in_arrb. rewrite X1, X2. exact B. }
  assert (Ft : stays_in_frame t0 dy dx).
  { intros i j I NI. rewrite X3 by exact I. apply Fr; unfold in_arr in *; rewrite X1, X2 in *; auto. }
  assert (Vt : varies t0).
  { assert (D : forall a b, dft t0 a b = dft s a b). { intros a b. unfold dft. rewrite S1, S2. apply csum2_ext. intros i j Hi Hj. rewrite S3 by (split; congruence || lia). reflexivity. }
    unfold varies in *. rewrite S1, S2. destruct Vs as [(a & b & L1 & L2 & L3 & L4) (c & d & L5 & L6 & L7 & L8)].
    split; [exists a, b|exists c, d]; rewrite !D; auto. }
  assert (G2 : 2 <= nr t0 /\ 2 <= nc t0). { destruct Vt as [(a & b & L1 & L2 & _) (c & d & L5 & L6 & _)]. lia. }
  assert (D1 : nr t0 = nr a0) by congruence. assert (D2 : nc t0 = nc a0) by congruence.
  destruct (psffit_exact shift t0 t1 cfg k 1 dy dx y x amp Ep Hk HU ltac:(lra) Vt (proj1 G2) (proj2 G2)) as (y' & x' & -> & -> & By & Bx & [e1 Y'] & [e2 X']).
  - rewrite D1. exact K1.
  - rewrite D2. exact K2.
  - apply fill_circular; auto; lia.
  - assert (e1 = 0) by nia. assert (e2 = 0) by nia. subst e1 e2. split; f_equal; lia.
Qed.
(** Adding the same phase to the poked and unpoked retrievals of a set changes nothing. *)
Lemma shear_screen a0 u0 p0 a1 u1 p1 cfg c0 c1 : nr a1 = nr a0 -> nc a1 = nc a0 ->
  fit a0 (screen c0 u0) (screen c0 p0) a1 (screen c1 u1) (screen c1 p1) cfg = fit a0 u0 p0 a1 u1 p1 cfg.
Proof.
  intros S1 S2. unfold fit_z_induced_spm_shear, guard.
  change (same_shape (screen c0 u0) a0) with (same_shape u0 a0). change (same_shape (screen c0 p0) a0) with (same_shape p0 a0).
  change (same_shape (screen c1 u1) a1) with (same_shape u1 a1). change (same_shape (screen c1 p1) a0) with (same_shape p1 a0).
  destruct (same_shape u0 a0) eqn:G1; cbn [bind]; [|reflexivity]. destruct (same_shape p0 a0) eqn:G2; cbn [bind]; [|reflexivity].
  destruct (same_shape u1 a1) eqn:G3; cbn [bind]; [|reflexivity]. destruct (same_shape p1 a0) eqn:G4; cbn [bind]; [|reflexivity].
  apply same_shape_iff in G1 as [A1 A2], G2 as [A3 A4], G3 as [A5 A6], G4 as [A7 A8].
  assert (P : forall a c u p, nr u = nr p -> nc u = nc p -> poke a (screen c u) (screen c p) = poke a u p).
  { intros a c u p Q1 Q2. unfold poke_map. replace (broadcast Rminus (screen c p) (screen c u)) with (broadcast Rminus p u); [reflexivity|].
    unfold broadcast. cbn [screen nr nc at2]. rewrite Q1, Q2, !bc_same. cbn [bind]. do 2 f_equal. extensionality i. extensionality j. ring. }
  rewrite !P by congruence. reflexivity.
Qed.
Lemma shear_rejects a0 u0 p0 a1 u1 p1 cfg :
  (same_shape u0 a0 = false \/ same_shape p0 a0 = false \/ same_shape u1 a1 = false \/ same_shape p1 a0 = false) ->
  fit a0 u0 p0 a1 u1 p1 cfg = Err ValueError.
Proof.
  unfold fit_z_induced_spm_shear, guard. intros H. destruct (same_shape u0 a0); cbn [bind]; [|reflexivity]. destruct (same_shape p0 a0); cbn [bind]; [|reflexivity].
  destruct (same_shape u1 a1); cbn [bind]; [|reflexivity]. destruct (same_shape p1 a0); cbn [bind]; [|reflexivity]. destruct H as [H|[H|[H|H]]]; discriminate.
Qed.
Lemma poke_defined amp unp pok t : nr unp = nr amp -> nc unp = nc amp -> nr pok = nr amp -> nc pok = nc amp ->
  (forall i j, in_arr amp i j -> (0 <= at2 amp i j)%R) -> ampthresh amp 21 = Ok t -> exists s m, poke amp unp pok = Ok (s, m).
Proof.
  intros E1 E2 E3 E4 Pa Et. unfold poke_map. destruct (broadcast_same Rminus pok unp) as (d & -> & D1 & D2 & _); [congruence..|]. cbn [bind].
  destruct (proj2 (unwrap_accepts up small d amp 21 0 64 true None)) as [[u m] Eu].
  { split; [apply same_shape_iff; split; congruence|]. split; [exact Pa|]. split; [lia|]. split; [lia|]. split; [discriminate|]. eauto. }
  rewrite Eu. cbn [bind fst snd]. pose proof (unwrap_ok up small U Sm _ _ _ _ _ _ _ _ _ Eu) as (Su & Sq & _). apply same_shape_iff in Su as [U1 U2], Sq as [M1 M2].
  destruct (ptt_spec lstsq O u (amap of_bool m)) as (s & -> & _); [apply same_shape_iff; cbn; split; congruence|apply of_bool_mask|]. cbn [bind]. eauto.
Qed.
Lemma shear_defined a0 u0 p0 a1 u1 p1 cfg k t0 t1 : nr u0 = nr a0 -> nc u0 = nc a0 -> nr p0 = nr a0 -> nc p0 = nc a0 ->
  nr a1 = nr a0 -> nc a1 = nc a0 -> nr u1 = nr a0 -> nc u1 = nc a0 -> nr p1 = nr a0 -> nc p1 = nc a0 ->
  (forall i j, in_arr a0 i j -> (0 <= at2 a0 i j)%R) -> (forall i j, in_arr a1 i j -> (0 <= at2 a1 i j)%R) -> ampthresh a0 21 = Ok t0 -> ampthresh a1 21 = Ok t1 ->
  read_config cfg = Ok k -> (upsample_factor k = 1 \/ 0 < upsample_factor k * pad_factor k)%R -> exists x y, fit a0 u0 p0 a1 u1 p1 cfg = Ok (x, y).
Proof.
  intros A1 A2 A3 A4 S1 S2 A5 A6 A7 A8 Pa Pb T0 T1 Hk HU. unfold fit_z_induced_spm_shear.
  rewrite (proj2 (same_shape_iff u0 a0)), (proj2 (same_shape_iff p0 a0)), (proj2 (same_shape_iff u1 a1)), (proj2 (same_shape_iff p1 a0)) by (split; congruence). cbn [guard bind].
  destruct (poke_defined a0 u0 p0 t0) as (s0 & m0 & E0); auto. destruct (poke_defined a1 u1 p1 t1) as (s1 & m1 & E1); auto; try congruence.
  rewrite E0, E1. cbn [bind fst snd]. cbv zeta.
  destruct (poke_parts a0 u0 p0 s0 m0 A1 A2 A3 A4 E0) as (_ & uu4 & _ & _ & _ & _ & _ & _ & _ & Q1 & Q2 & _ & _ & (F1 & _)).
  destruct (poke_parts a1 u1 p1 s1 m1 ltac:(congruence) ltac:(congruence) ltac:(congruence) ltac:(congruence) E1) as (_ & uu5 & _ & _ & _ & _ & _ & _ & _ & Q3 & Q4 & _ & _ & (F2 & _)).
  apply same_shape_iff in F1 as [B1 B2], F2 as [B3 B4]. destruct (ampthresh_nonempty _ _ _ T0) as (P1 & P2 & _).
  destruct (pad_crop_ok s1 (nr a0) (nc a0) 0%R) as (s1' & Es & _); [unfold wf; lia|lia|lia|]. destruct (pad_crop_ok m1 (nr a0) (nc a0) false) as (m1' & Em & _); [unfold wf; lia|lia|lia|].
  rewrite Es, Em. cbn [bind]. assert (Wm : wf m1) by (unfold wf; lia). destruct (pad_crop_inv _ _ _ _ Wm Em) as (h & w & Sz & _ & _ & M1 & M2 & _). injection Sz as <- <-.
  destruct (psffit_def shift (amap2 Rmult (amap of_bool m0) s0) (amap2 Rmult (amap of_bool m1') s1') cfg k Hk) as [[[y x] amp] Ep]; cbn [amap2 amap nr nc]; try congruence; try lia.
  rewrite Ep. cbn [bind fst snd]. eauto.
Qed.
End Shear.
