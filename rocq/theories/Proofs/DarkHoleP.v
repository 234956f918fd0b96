(** Proofs about dark-hole masks and YAML loading. *)
From Coq Require Import ZArith Bool List String Reals Lra Lia Permutation.
From Coquelicot Require Rcomplements.
From Verif.Base Require Import Py Arr Trig.
From Verif.Model Require Import Fits Shapes Yaml DarkHole.
From Verif.Spec Require Import ShapesSpec DarkHoleSpec.
From Verif.Proofs Require Import FitsP ShapesP.
Import ListNotations.
Open Scope string_scope.
Open Scope Z_scope.

(** ** loadyaml *)
Lemma isa_derives c t : isa c t = true <-> derives c t.
Proof.
  split.
  - unfold isa. generalize 4%nat. intros n. revert c. induction n as [|n IH]; intros c H; cbn [isa_fuel] in H.
    + rewrite orb_false_r in H. assert (c = t) as -> by (destruct c, t; try discriminate; reflexivity). constructor.
    + apply orb_true_iff in H as [H|H].
      * assert (c = t) as -> by (destruct c, t; try discriminate; reflexivity). constructor.
      * destruct (base_class c) as [b|] eqn:B; [|discriminate]. eapply derives_base; eauto.
  - assert (T : forall a b d, base_class a = Some b -> isa b d = true -> isa a d = true).
    { intros a b d. destruct a; cbn [base_class]; intros H; inversion H; subst; destruct d; vm_compute; congruence. }
    induction 1 as [c|c b d B D IH]; [destruct c; reflexivity|]. eauto.
Qed.
Lemma loadyaml_spec {path file E : Type} (open_ : path -> outcome file) safe_load p (custom : E) :
  (forall f v, open_ p = Returns f -> safe_load f = Returns v -> loadyaml open_ safe_load p custom = inl v) /\
  (forall c, open_ p = Raises c \/ (exists f, open_ p = Returns f /\ safe_load f = Raises c) ->
     ((derives c COSError \/ derives c CYAMLError \/ derives c CUnicodeDecodeError) ->
        loadyaml open_ safe_load p custom = inr (CustomException custom)) /\
     (~ derives c COSError -> ~ derives c CYAMLError -> ~ derives c CUnicodeDecodeError ->
        loadyaml open_ safe_load p custom = inr (Original c))).
Proof.
  unfold loadyaml. split.
  - intros f v -> ->. reflexivity.
  - intros c H.
    assert (B : match open_ p with Returns f => safe_load f | Raises c0 => Raises c0 end = Raises c).
    { destruct H as [-> |(f & -> & ->)]; reflexivity. }
    rewrite B. rewrite <- !isa_derives. split.
    + intros [-> |[K|K]]; [reflexivity|destruct (isa c COSError); [reflexivity|]; rewrite K; reflexivity|].
      destruct (isa c COSError); [reflexivity|]. destruct (isa c CYAMLError); [reflexivity|]. rewrite K. reflexivity.
    + intros A1 A2 A3. destruct (isa c COSError); [congruence|]. destruct (isa c CYAMLError); [congruence|].
      destruct (isa c CUnicodeDecodeError); [congruence|]. reflexivity.
Qed.
Lemma loadyaml_inv {path file E : Type} (open_ : path -> outcome file) safe_load p (custom : E) v :
  loadyaml open_ safe_load p custom = inl v -> exists f, open_ p = Returns f /\ safe_load f = Returns v.
Proof.
  unfold loadyaml. destruct (open_ p) as [f|c] eqn:O; [destruct (safe_load f) as [w|c] eqn:L|].
  - intros [= ->]. eauto.
  - destruct (isa c COSError), (isa c CYAMLError), (isa c CUnicodeDecodeError); discriminate.
  - destruct (isa c COSError), (isa c CYAMLError), (isa c CUnicodeDecodeError); discriminate.
Qed.

(** ** Lookups and checks *)
Lemma assoc_entry k d v : assoc k d = Some v <-> entry k d v.
Proof.
  split.
  - induction d as [|[k' w] d IH]; cbn; [discriminate|]. destruct (String.eqb_spec k k') as [->|N].
    + intros [= ->]. constructor.
    + intros H. constructor; auto.
  - induction 1; cbn; [rewrite String.eqb_refl; auto|]. destruct (String.eqb_spec k k'); [contradiction|auto].
Qed.
Lemma item_has v k x : item v k = Ok x <-> has v k x.
Proof.
  unfold has. split.
  - destruct v; try discriminate. cbn. destruct (assoc k d) eqn:A; [|discriminate]. intros [= <-]. exists d. split; auto.
    apply assoc_entry. auto.
  - intros (d & -> & H). cbn. apply assoc_entry in H. rewrite H. auto.
Qed.
Lemma has_det v k x y : has v k x -> has v k y -> x = y.
Proof. intros A B. apply item_has in A, B. congruence. Qed.
Lemma real_ok v r : real_scalar_ v = Ok r <-> is_real v r.
Proof.
  split; [|destruct 1; reflexivity]. unfold real_scalar_.
  destruct v; cbn; intros H; try discriminate; injection H as <-; constructor.
Qed.
Lemma positive_ok v r : positive_scalar_ v = Ok r <-> is_real v r /\ (0 < r)%R.
Proof.
  unfold positive_scalar_. rewrite <- real_ok. destruct (real_scalar_ v) as [q|e]; cbn [bind]; [|split; [discriminate|intros []; discriminate]].
  split.
  - intros H. apply guard_ok in H as [G H]. injection H as <-. apply Rltb_iff in G. auto.
  - intros [[= <-] H]. rewrite (proj2 (Rltb_iff 0 q)) by auto. reflexivity.
Qed.
Lemma nonnegative_ok v r : nonnegative_scalar_ v = Ok r <-> is_real v r /\ (0 <= r)%R.
Proof.
  unfold nonnegative_scalar_. rewrite <- real_ok. destruct (real_scalar_ v) as [q|e]; cbn [bind]; [|split; [discriminate|intros []; discriminate]].
  split.
  - intros H. apply guard_ok in H as [G H]. injection H as <-. apply Rleb_iff in G. auto.
  - intros [[= <-] H]. rewrite (proj2 (Rleb_iff 0 q)) by auto. reflexivity.
Qed.
Lemma int_ok v z : positive_int_ v = Ok z <-> is_int v z /\ 0 < z.
Proof.
  unfold positive_int_. split.
  - destruct v; cbn [as_int]; try discriminate; intros H; apply guard_ok in H as [G H]; injection H as <-; apply Z.ltb_lt in G; split; auto; constructor.
  - intros [H P]. destruct H; cbn [as_int]; rewrite (proj2 (Z.ltb_lt _ _) P); reflexivity.
Qed.
Lemma radii_ok ri ro : negb (Rltb ro ri) = true <-> (ri <= ro)%R.
Proof. rewrite negb_true_iff. apply Rltb_false. Qed.

(** ** Shapes *)
Lemma px_off n o i : (px n 0 i - o)%R = px n o i.
Proof. unfold px. ring. Qed.
Lemma rectangle_good nR nC X Y W H n m xo yo w h :
  is_int nR n -> is_int nC m -> 0 < n -> 0 < m -> is_real X xo -> is_real Y yo -> is_real W w -> is_real H h ->
  (0 < w)%R -> (0 < h)%R ->
  exists a, gen_rectangle nR nC X Y W H = Ok a /\ good n m a (Rectangle xo yo w h).
Proof.
  intros A1 A2 A3 A4 A5 A6 A7 A8 A9 A10. unfold gen_rectangle.
  rewrite (proj2 (int_ok nR n)), (proj2 (int_ok nC m)), (proj2 (real_ok X xo)), (proj2 (real_ok Y yo)),
    (proj2 (positive_ok W w)), (proj2 (positive_ok H h)) by auto. cbn [bind].
  eexists. split; [reflexivity|]. split; [reflexivity|]. split; [reflexivity|]. intros i j Hi Hj. cbn [at2 in_shape].
  unfold coord_x, coord_y. rewrite !axis_px by lia. rewrite !px_off, andb_true_iff, !Rleb_iff. tauto.
Qed.
Lemma annulus_iff ri ro x y : (0 <= ri)%R -> (0 <= ro)%R -> (Rleb ri (coord_r x y) && Rleb (coord_r x y) ro = true <-> annulus_set ri ro x y).
Proof.
  intros H1 H2. rewrite andb_true_iff, !Rleb_iff. unfold coord_r. rewrite nrm_alt. unfold annulus_set. rewrite <- nrm_sq.
  pose proof (nrm_nonneg x y). split; [intros []; split; nra|]. intros []. split; apply le_of_sq; auto.
Qed.
Lemma annulus_good nR nC X Y Ri Ro n m xo yo ri ro :
  is_int nR n -> is_int nC m -> 0 < n -> 0 < m -> is_real X xo -> is_real Y yo -> is_real Ri ri -> is_real Ro ro ->
  (0 <= ri <= ro)%R ->
  exists a, gen_annulus nR nC X Y Ri Ro = Ok a /\ good n m a (Annulus xo yo ri ro).
Proof.
  intros A1 A2 A3 A4 A5 A6 A7 A8 [A9 A10]. unfold gen_annulus. assert (0 <= ro)%R by lra.
  rewrite (proj2 (int_ok nR n)), (proj2 (int_ok nC m)), (proj2 (real_ok X xo)), (proj2 (real_ok Y yo)),
    (proj2 (nonnegative_ok Ri ri)), (proj2 (nonnegative_ok Ro ro)) by auto. cbn [bind].
  rewrite (proj2 (radii_ok ri ro)) by auto. cbn [guard bind].
  eexists. split; [reflexivity|]. split; [reflexivity|]. split; [reflexivity|]. intros i j Hi Hj. cbn [at2 in_shape].
  unfold coord_x, coord_y. rewrite !axis_px by lia. rewrite !px_off. cbv zeta. apply annulus_iff; auto.
Qed.
Lemma sector_good nR nC X Y Ri Ro Op Cl n m xo yo ri ro op cl :
  is_int nR n -> is_int nC m -> 0 < n -> 0 < m -> is_real X xo -> is_real Y yo -> is_real Ri ri -> is_real Ro ro ->
  is_real Op op -> is_real Cl cl -> (0 <= ri <= ro)%R -> (0 < op)%R ->
  exists a, gen_annular_sector nR nC X Y Ri Ro Op Cl = Ok a /\ good n m a (Sector xo yo ri ro op cl).
Proof.
  intros A1 A2 A3 A4 A5 A6 A7 A8 A11 A12 [A9 A10] A13. unfold gen_annular_sector. assert (0 <= ro)%R by lra.
  rewrite (proj2 (int_ok nR n)), (proj2 (int_ok nC m)), (proj2 (real_ok X xo)), (proj2 (real_ok Y yo)),
    (proj2 (nonnegative_ok Ri ri)), (proj2 (nonnegative_ok Ro ro)), (proj2 (positive_ok Op op)), (proj2 (real_ok Cl cl)) by auto. cbn [bind].
  rewrite (proj2 (radii_ok ri ro)) by auto. cbn [guard bind].
  eexists. split; [reflexivity|]. split; [reflexivity|]. split; [reflexivity|]. intros i j Hi Hj. cbn [at2 in_shape].
  unfold coord_x, coord_y. rewrite !axis_px by lia. rewrite !px_off. cbv zeta.
  set (x := px m xo j). set (y := px n yo i). rewrite <- annulus_iff, <- wedge_iff, <- andb_assoc, andb_true_iff by auto.
  assert (K : (Rleb (- radians op / 2) (wrap_angle (coord_theta x y - radians cl)) &&
      Rleb (wrap_angle (coord_theta x y - radians cl)) (radians op / 2) = true <-> Rabs (wrap_angle (arctan2 y x - deg cl)) <= deg op / 2)%R).
  { unfold coord_theta, radians. fold (deg op) (deg cl). rewrite andb_true_iff, !Rleb_iff, Rcomplements.Rabs_le_between. lra. }
  rewrite K. tauto.
Qed.
Lemma plus180_real v r : is_real v r -> is_real (plus180 v) (r + 180).
Proof.
  destruct 1; cbn; [|rewrite <- plus_IZR; constructor|constructor].
  destruct b; [change (1 + 180)%R with (IZR 1 + IZR 180)%R|change (0 + 180)%R with (IZR 0 + IZR 180)%R]; rewrite <- plus_IZR; constructor.
Qed.
Lemma bowtie_good nR nC X Y Ri Ro Op Cl n m xo yo ri ro op cl :
  is_int nR n -> is_int nC m -> 0 < n -> 0 < m -> is_real X xo -> is_real Y yo -> is_real Ri ri -> is_real Ro ro ->
  is_real Op op -> is_real Cl cl -> (0 <= ri <= ro)%R -> (0 < op)%R ->
  exists a, gen_bowtie nR nC X Y Ri Ro Op Cl = Ok a /\ good n m a (Bowtie xo yo ri ro op cl).
Proof.
  intros A1 A2 A3 A4 A5 A6 A7 A8 A11 A12 [A9 A10] A13. unfold gen_bowtie. assert (0 <= ro)%R by lra.
  rewrite (proj2 (int_ok nR n)), (proj2 (int_ok nC m)), (proj2 (real_ok X xo)), (proj2 (real_ok Y yo)),
    (proj2 (nonnegative_ok Ri ri)), (proj2 (nonnegative_ok Ro ro)), (proj2 (positive_ok Op op)), (proj2 (real_ok Cl cl)) by auto. cbn [bind].
  rewrite (proj2 (radii_ok ri ro)) by auto. cbn [guard bind].
  destruct (sector_good nR nC X Y Ri Ro Op Cl n m xo yo ri ro op cl) as (a & Ea & R1 & C1 & V1); auto.
  destruct (sector_good nR nC X Y Ri Ro Op (plus180 Cl) n m xo yo ri ro op (cl + 180)) as (b & Eb & R2 & C2 & V2); auto using plus180_real.
  rewrite Ea, Eb. cbn [bind]. eexists. split; [reflexivity|]. split; [exact R1|]. split; [exact C1|].
  intros i j Hi Hj. cbn [amap2 at2]. rewrite orb_true_iff, V1, V2 by auto. cbn [in_shape].
  replace (deg (cl + 180)) with (deg cl + PI)%R by (unfold deg; field). tauto.
Qed.
Lemma gen_shape_good nR nC n m d s : is_int nR n -> is_int nC m -> 0 < n -> 0 < m -> describes d s -> shape_valid s ->
  exists a, gen_shape nR nC d = Ok a /\ good n m a s.
Proof.
  intros A1 A2 A3 A4 D V. unfold gen_shape.
  destruct D as [xo yo w h Hs (X & HX & RX) (Y & HY & RY) (W & HW & RW) (H & HH & RH)
    |xo yo ri ro Hs (X & HX & RX) (Y & HY & RY) (Ri & Hi & Rri) (Ro & Ho & Rro)
    |xo yo ri ro op cl Hs (X & HX & RX) (Y & HY & RY) (Ri & Hi & Rri) (Ro & Ho & Rro) (Op & HOp & ROp) (Cl & HCl & RCl)
    |xo yo ri ro op cl Hs (X & HX & RX) (Y & HY & RY) (Ri & Hi & Rri) (Ro & Ho & Rro) (Op & HOp & ROp) (Cl & HCl & RCl)];
  cbn [shape_valid] in V;
  rewrite (proj2 (item_has _ _ _) HX), (proj2 (item_has _ _ _) HY), (proj2 (item_has _ _ _) Hs); cbn [bind String.eqb Ascii.eqb Bool.eqb].
  - rewrite (proj2 (item_has _ _ _) HW), (proj2 (item_has _ _ _) HH). cbn [bind]. apply rectangle_good; tauto.
  - rewrite (proj2 (item_has _ _ _) Hi), (proj2 (item_has _ _ _) Ho). cbn [bind]. apply annulus_good; tauto.
  - rewrite (proj2 (item_has _ _ _) Hi), (proj2 (item_has _ _ _) Ho), (proj2 (item_has _ _ _) HOp), (proj2 (item_has _ _ _) HCl). cbn [bind].
    apply sector_good; tauto.
  - rewrite (proj2 (item_has _ _ _) Hi), (proj2 (item_has _ _ _) Ho), (proj2 (item_has _ _ _) HOp), (proj2 (item_has _ _ _) HCl). cbn [bind].
    apply bowtie_good; tauto.
Qed.
Lemma bind_ok {A B} (x : res A) (k : A -> res B) b : bind x k = Ok b -> exists a, x = Ok a /\ k a = Ok b.
Proof. destruct x; cbn; [eauto|discriminate]. Qed.
Ltac inv_bind H := let a := fresh "v" in let E := fresh "E" in apply bind_ok in H as (a & E & H).
Lemma gen_shape_inv nR nC d a : gen_shape nR nC d = Ok a -> exists s, describes d s /\ shape_valid s.
Proof.
  intros H. unfold gen_shape in H. inv_bind H. inv_bind H. inv_bind H. apply item_has in E, E0, E1.
  destruct v1; try discriminate.
  destruct (String.eqb_spec s "rectangle") as [->|_]; [|destruct (String.eqb_spec s "annulus") as [->|_];
   [|destruct (String.eqb_spec s "annular_sector") as [->|_]; [|destruct (String.eqb_spec s "bowtie") as [->|_]; [|discriminate]]]].
  - inv_bind H. inv_bind H. apply item_has in E2, E3. unfold gen_rectangle in H.
    inv_bind H. inv_bind H. inv_bind H. inv_bind H. inv_bind H. inv_bind H.
    apply real_ok in E6, E7. apply positive_ok in E8 as [E8 P8], E9 as [E9 P9].
    eexists. split; [eapply d_rectangle; unfold has_real; eauto|]. cbn. auto.
  - inv_bind H. inv_bind H. apply item_has in E2, E3. unfold gen_annulus in H.
    inv_bind H. inv_bind H. inv_bind H. inv_bind H. inv_bind H. inv_bind H. apply guard_ok in H as [G H].
    apply real_ok in E6, E7. apply nonnegative_ok in E8 as [E8 P8], E9 as [E9 P9]. apply radii_ok in G.
    eexists. split; [eapply d_annulus; unfold has_real; eauto|]. cbn. auto.
  - inv_bind H. inv_bind H. inv_bind H. inv_bind H. apply item_has in E2, E3, E4, E5. unfold gen_annular_sector in H.
    inv_bind H. inv_bind H. inv_bind H. inv_bind H. inv_bind H. inv_bind H. apply guard_ok in H as [G H]. inv_bind H. inv_bind H.
    apply real_ok in E8, E9, E13. apply nonnegative_ok in E10 as [E10 P10], E11 as [E11 P11]. apply positive_ok in E12 as [E12 P12]. apply radii_ok in G.
    eexists. split; [eapply d_sector; unfold has_real; eauto|]. cbn. auto.
  - inv_bind H. inv_bind H. inv_bind H. inv_bind H. apply item_has in E2, E3, E4, E5. unfold gen_bowtie in H.
    inv_bind H. inv_bind H. inv_bind H. inv_bind H. inv_bind H. inv_bind H. apply guard_ok in H as [G H]. inv_bind H. inv_bind H.
    apply real_ok in E8, E9, E13. apply nonnegative_ok in E10 as [E10 P10], E11 as [E11 P11]. apply positive_ok in E12 as [E12 P12]. apply radii_ok in G.
    eexists. split; [eapply d_bowtie; unfold has_real; eauto|]. cbn. auto.
Qed.

(** ** Union *)
Lemma logical_or_spec s k n m : nr s = n -> nc s = m ->
  mask_rows (logical_or s k) = n /\ mask_cols (logical_or s k) = m /\ mask_bool (logical_or s k) /\
  forall i j, mask_true (logical_or s k) i j <-> at2 s i j = true \/ mask_true k i j.
Proof.
  intros R C. destruct k as [a|a]; cbn; (split; [auto|]; split; [auto|]; split; [auto|]); intros i j.
  - rewrite orb_true_iff, negb_true_iff. unfold Reqb. destruct (Req_EM_T (at2 a i j) 0); intuition congruence.
  - rewrite orb_true_iff. tauto.
Qed.
Lemma combine_good nR nC n m d shapes : is_int nR n -> is_int nC m -> 0 < n -> 0 < m ->
  Forall2 (fun kv s => describes (snd kv) s /\ shape_valid s) d shapes -> forall k0, mask_rows k0 = n -> mask_cols k0 = m ->
  exists k, combine_shapes nR nC d k0 = Ok k /\ mask_rows k = n /\ mask_cols k = m /\ (shapes = [] -> k = k0) /\ (shapes <> [] -> mask_bool k) /\
   forall i j, 0 <= i < n -> 0 <= j < m -> (mask_true k i j <-> Exists (fun s => in_shape s (px m 0 j) (px n 0 i)) shapes \/ mask_true k0 i j).
Proof.
  intros A1 A2 A3 A4 F. induction F as [|[key v] s d shapes [D V] F IH]; intros k0 R C.
  - exists k0. cbn. split; [auto|]. split; [auto|]. split; [auto|]. split; [auto|]. split; [congruence|].
    intros i j _ _. split; auto. intros [H|H]; [inversion H|auto].
  - cbn [combine_shapes]. destruct (gen_shape_good nR nC n m v s A1 A2 A3 A4 D V) as (a & Ea & Ra & Ca & Va). rewrite Ea. cbn [bind].
    destruct (logical_or_spec a k0 n m Ra Ca) as (LR & LC & LB & LV).
    destruct (IH (logical_or a k0) LR LC) as (k & Ek & Rk & Ck & Z1 & B1 & Vk). exists k.
    split; [auto|]. split; [auto|]. split; [auto|]. split; [discriminate|]. split.
    + intros _. destruct shapes as [|s' shapes']; [rewrite Z1; auto|apply B1; discriminate].
    + intros i j Hi Hj. rewrite Vk, LV, Va, Exists_cons by auto. tauto.
Qed.
Lemma dark_hole_ok v n m shapes : describes_hole v n m shapes ->
  exists k, gen_dark_hole v = Ok k /\ mask_rows k = n /\ mask_cols k = m /\
   (shapes = [] -> k = FloatMask (afull n m 0%R)) /\ (shapes <> [] -> mask_bool k) /\
   forall i j, 0 <= i < n -> 0 <= j < m -> (mask_true k i j <-> Exists (fun s => in_shape s (px m 0 j) (px n 0 i)) shapes).
Proof.
  intros ((nR & H1 & I1) & (nC & H2 & I2) & P1 & P2 & d & H3 & F). unfold gen_dark_hole.
  rewrite (proj2 (item_has _ _ _) H1), (proj2 (item_has _ _ _) H2). cbn [bind].
  rewrite (proj2 (int_ok nR n)), (proj2 (int_ok nC m)) by auto. cbn [bind].
  rewrite (proj2 (item_has _ _ _) H3). cbn [bind items].
  destruct (combine_good nR nC n m d shapes I1 I2 P1 P2 F (FloatMask (afull n m 0%R)) eq_refl eq_refl) as (k & E & R & C & Z1 & B1 & V).
  exists k. split; [auto|]. split; [auto|]. split; [auto|]. split; [auto|]. split; [auto|].
  intros i j Hi Hj. rewrite V by auto. cbn. tauto.
Qed.
Lemma combine_inv nR nC d k0 k : combine_shapes nR nC d k0 = Ok k ->
  exists shapes, Forall2 (fun kv s => describes (snd kv) s /\ shape_valid s) d shapes.
Proof.
  revert k0. induction d as [|[key v] d IH]; intros k0 H; cbn [combine_shapes] in H; [exists []; constructor|].
  apply bind_ok in H as (a & Ea & H). apply gen_shape_inv in Ea as (s & D & V). apply IH in H as (shapes & F).
  exists (s :: shapes). constructor; auto.
Qed.
Lemma dark_hole_inv v k : gen_dark_hole v = Ok k -> exists n m shapes, describes_hole v n m shapes.
Proof.
  intros H. unfold gen_dark_hole in H. inv_bind H. inv_bind H. inv_bind H. inv_bind H. inv_bind H. inv_bind H.
  apply item_has in E, E0, E3. apply int_ok in E1 as [E1 P1], E2 as [E2 P2].
  destruct v4; try discriminate. injection E4 as <-. apply combine_inv in H as (shapes & F).
  exists v2, v3, shapes. split; [exists v0; auto|]. split; [exists v1; auto|]. split; [auto|]. split; [auto|]. exists d. auto.
Qed.
Lemma exists_perm {A} (P : A -> Prop) l l' : Permutation l l' -> Exists P l -> Exists P l'.
Proof. intros H. rewrite !Exists_exists. intros (x & I & Px). exists x. split; auto. eapply Permutation_in; eauto. Qed.
Lemma dark_hole_order v v' n m shapes shapes' k k' : describes_hole v n m shapes -> describes_hole v' n m shapes' ->
  Permutation shapes shapes' -> gen_dark_hole v = Ok k -> gen_dark_hole v' = Ok k' ->
  mask_rows k = mask_rows k' /\ mask_cols k = mask_cols k' /\ (mask_bool k <-> mask_bool k') /\
  forall i j, 0 <= i < n -> 0 <= j < m -> (mask_true k i j <-> mask_true k' i j).
Proof.
  intros D D' P E E'. destruct (dark_hole_ok _ _ _ _ D) as (a & Ea & R & C & Z1 & B1 & V). rewrite E in Ea. injection Ea as <-.
  destruct (dark_hole_ok _ _ _ _ D') as (a & Ea & R' & C' & Z1' & B1' & V'). rewrite E' in Ea. injection Ea as <-.
  split; [congruence|]. split; [congruence|]. split.
  - destruct shapes as [|s l]; [apply Permutation_nil in P; subst shapes'; rewrite Z1, Z1' by auto; tauto|].
    destruct shapes' as [|s' l']; [symmetry in P; apply Permutation_nil in P; discriminate|].
    split; intros _; [apply B1'|apply B1]; discriminate.
  - intros i j Hi Hj. rewrite V, V' by auto. split; apply exists_perm; auto. symmetry. auto.
Qed.

(** ** Geometry *)
Lemma wedge_opposite t a x y : (x <> 0 \/ y <> 0)%R -> in_wedge (t + PI) a x y <-> in_wedge t a (- x) (- y).
Proof.
  intros N. unfold in_wedge.
  split; intros (r & s & Hr & X & Y & Hs & H0); exists r, s; (split; [auto|]);
    assert (Rn : r <> 0%R) by (intros ->; destruct N as [N|N]; apply N; lra).
  - replace (t + PI + s)%R with (t + s + PI)%R in X, Y by ring. rewrite neg_cos in X. rewrite neg_sin in Y.
    split; [lra|]. split; [lra|]. split; [auto|]. intros; contradiction.
  - replace (t + PI + s)%R with (t + s + PI)%R by ring. rewrite neg_cos, neg_sin.
    split; [lra|]. split; [lra|]. split; [auto|]. intros; contradiction.
Qed.
Lemma bowtie_symmetric xo yo ri ro op cl x y :
  in_shape (Bowtie xo yo ri ro op cl) (xo + x) (yo + y) <-> in_shape (Bowtie xo yo ri ro op cl) (xo - x) (yo - y).
Proof.
  cbn [in_shape]. replace (xo + x - xo)%R with x by ring. replace (yo + y - yo)%R with y by ring.
  replace (xo - x - xo)%R with (- x)%R by ring. replace (yo - y - yo)%R with (- y)%R by ring.
  assert (A : annulus_set ri ro x y <-> annulus_set ri ro (- x) (- y)).
  { unfold annulus_set. replace ((- x) ^ 2 + (- y) ^ 2)%R with (x ^ 2 + y ^ 2)%R by ring. tauto. }
  rewrite A. destruct (Req_dec x 0) as [->|Nx].
  - destruct (Req_dec y 0) as [->|Ny]; [rewrite Ropp_0; tauto|].
    rewrite wedge_opposite by auto. rewrite (wedge_opposite (deg cl) _ (- 0) (- y)) by (right; lra). rewrite !Ropp_involutive. tauto.
  - rewrite wedge_opposite by auto. rewrite (wedge_opposite (deg cl) _ (- x) (- y)) by (left; lra). rewrite !Ropp_involutive. tauto.
Qed.
Lemma full_sector xo yo ri ro op cl x y : (360 <= op)%R -> in_shape (Sector xo yo ri ro op cl) x y <-> in_shape (Annulus xo yo ri ro) x y.
Proof.
  intros H. cbn [in_shape]. split; [tauto|]. intros A. split; auto. apply wedge_iff.
  pose proof (wrap_range (arctan2 (y - yo) (x - xo) - deg cl)) as W. pose proof PI_RGT_0.
  apply Rle_trans with PI; [apply Rabs_le; lra|unfold deg; nra].
Qed.
Lemma bool_iff_eq (a b : bool) : (a = true <-> b = true) -> a = b.
Proof. destruct a, b; intuition congruence. Qed.
Lemma full_sector_masks nR nC X Y Ri Ro Op Cl n m xo yo ri ro op cl a b :
  is_int nR n -> is_int nC m -> 0 < n -> 0 < m -> is_real X xo -> is_real Y yo -> is_real Ri ri -> is_real Ro ro ->
  is_real Op op -> is_real Cl cl -> (0 <= ri <= ro)%R -> (360 <= op)%R ->
  gen_annular_sector nR nC X Y Ri Ro Op Cl = Ok a -> gen_annulus nR nC X Y Ri Ro = Ok b -> aeq a b.
Proof.
  intros. destruct (sector_good nR nC X Y Ri Ro Op Cl n m xo yo ri ro op cl) as (a' & Ea & Ra & Ca & Va); auto; [lra|].
  destruct (annulus_good nR nC X Y Ri Ro n m xo yo ri ro) as (b' & Eb & Rb & Cb & Vb); auto.
  assert (a' = a) as -> by congruence. assert (b' = b) as -> by congruence.
  split; [congruence|]. split; [congruence|]. intros i j [Hi Hj]. apply bool_iff_eq. rewrite Ra in Hi. rewrite Ca in Hj.
  rewrite Va, Vb by auto. apply full_sector. auto.
Qed.
Lemma bowtie_symmetric_masks nR nC X Y Ri Ro Op Cl n m xo yo ri ro op cl a :
  is_int nR n -> is_int nC m -> 0 < n -> 0 < m -> is_real X xo -> is_real Y yo -> is_real Ri ri -> is_real Ro ro ->
  is_real Op op -> is_real Cl cl -> (0 <= ri <= ro)%R -> (0 < op)%R ->
  gen_bowtie nR nC X Y Ri Ro Op Cl = Ok a ->
  forall i j i' j', in_arr a i j -> in_arr a i' j' -> px m xo j' = (- px m xo j)%R -> px n yo i' = (- px n yo i)%R ->
  at2 a i' j' = at2 a i j.
Proof.
  intros. destruct (bowtie_good nR nC X Y Ri Ro Op Cl n m xo yo ri ro op cl) as (a' & Ea & Ra & Ca & Va); auto.
  assert (a' = a) as -> by congruence. apply bool_iff_eq. destruct H12 as [I1 I2], H13 as [I3 I4]. rewrite Ra in I1, I3. rewrite Ca in I2, I4.
  rewrite !Va by auto.
  replace (px m 0 j') with (xo - px m xo j)%R by (rewrite <- (px_off m xo j') in H14; lra).
  replace (px n 0 i') with (yo - px n yo i)%R by (rewrite <- (px_off n yo i') in H15; lra).
  replace (px m 0 j) with (xo + px m xo j)%R by (rewrite <- px_off; ring).
  replace (px n 0 i) with (yo + px n yo i)%R by (rewrite <- px_off; ring).
  symmetry. apply bowtie_symmetric.
Qed.
Lemma bad_radii nR nC X Y Ri Ro n m xo yo ri ro :
  is_int nR n -> is_int nC m -> 0 < n -> 0 < m -> is_real X xo -> is_real Y yo -> is_real Ri ri -> is_real Ro ro ->
  (0 <= ro < ri)%R ->
  gen_annulus nR nC X Y Ri Ro = Err ValueError /\
  forall Op Cl, gen_annular_sector nR nC X Y Ri Ro Op Cl = Err ValueError /\ gen_bowtie nR nC X Y Ri Ro Op Cl = Err ValueError.
Proof.
  intros A1 A2 A3 A4 A5 A6 A7 A8 [A9 A10]. assert (0 <= ri)%R by lra.
  assert (B : negb (Rltb ro ri) = false) by (rewrite (proj2 (Rltb_iff ro ri)) by auto; auto).
  split; [|intros Op Cl; split]; unfold gen_annulus, gen_annular_sector, gen_bowtie;
  rewrite (proj2 (int_ok nR n)), (proj2 (int_ok nC m)), (proj2 (real_ok X xo)), (proj2 (real_ok Y yo)),
    (proj2 (nonnegative_ok Ri ri)), (proj2 (nonnegative_ok Ro ro)) by auto; cbn [bind]; rewrite B; reflexivity.
Qed.
Lemma dark_hole_file {path file} (open_ : path -> outcome file) safe_load p :
  (forall f v, open_ p = Returns f -> safe_load f = Returns v -> gen_dark_hole_from_yaml open_ safe_load p = inl (gen_dark_hole v)) /\
  (forall c, (open_ p = Raises c \/ exists f, open_ p = Returns f /\ safe_load f = Raises c) ->
     derives c COSError \/ derives c CYAMLError \/ derives c CUnicodeDecodeError ->
     gen_dark_hole_from_yaml open_ safe_load p = inl (Err OSError)).
Proof.
  unfold gen_dark_hole_from_yaml. destruct (loadyaml_spec open_ safe_load p OSError) as [A B]. split.
  - intros f v O L. rewrite (A f v O L). reflexivity.
  - intros c H D. destruct (B c H) as [B1 _]. rewrite (B1 D). reflexivity.
Qed.
Lemma bad_name nR nC n m pre key v post shapes : is_int nR n -> is_int nC m -> 0 < n -> 0 < m ->
  Forall2 (fun kv s => describes (snd kv) s /\ shape_valid s) pre shapes ->
  (exists x y name, has v "xOffset" x /\ has v "yOffset" y /\ has v "shape" name /\
     ~ In name [YStr "rectangle"; YStr "annulus"; YStr "annular_sector"; YStr "bowtie"]) ->
  forall k0, mask_rows k0 = n -> mask_cols k0 = m -> combine_shapes nR nC (pre ++ (key, v) :: post) k0 = Err ValueError.
Proof.
  intros A1 A2 A3 A4 F (x & y & name & H1 & H2 & H3 & N). induction F as [|[key' v'] s d shapes [D V] F IH]; intros k0 R C.
  - cbn [app combine_shapes]. unfold gen_shape.
    rewrite (proj2 (item_has _ _ _) H1), (proj2 (item_has _ _ _) H2), (proj2 (item_has _ _ _) H3). cbn [bind].
    destruct name; try reflexivity.
    destruct (String.eqb_spec s "rectangle") as [->|_]; [exfalso; apply N; cbn; auto|].
    destruct (String.eqb_spec s "annulus") as [->|_]; [exfalso; apply N; cbn; auto|].
    destruct (String.eqb_spec s "annular_sector") as [->|_]; [exfalso; apply N; cbn; auto|].
    destruct (String.eqb_spec s "bowtie") as [->|_]; [exfalso; apply N; cbn; auto|]. reflexivity.
  - cbn [app combine_shapes]. destruct (gen_shape_good nR nC n m v' s A1 A2 A3 A4 D V) as (a & Ea & Ra & Ca & Va). rewrite Ea. cbn [bind].
    destruct (logical_or_spec a k0 n m Ra Ca) as (LR & LC & _). apply IH; auto.
Qed.
Lemma dark_hole_bad_name v n m pre key w post shapes : has_int v "nRows" n -> has_int v "nCols" m -> 0 < n -> 0 < m ->
  has v "shapes" (YDict (pre ++ (key, w) :: post)) ->
  Forall2 (fun kv s => describes (snd kv) s /\ shape_valid s) pre shapes ->
  (exists x y name, has w "xOffset" x /\ has w "yOffset" y /\ has w "shape" name /\
     ~ In name [YStr "rectangle"; YStr "annulus"; YStr "annular_sector"; YStr "bowtie"]) ->
  gen_dark_hole v = Err ValueError.
Proof.
  intros (nR & H1 & I1) (nC & H2 & I2) P1 P2 H3 F B. unfold gen_dark_hole.
  rewrite (proj2 (item_has _ _ _) H1), (proj2 (item_has _ _ _) H2). cbn [bind].
  rewrite (proj2 (int_ok nR n)), (proj2 (int_ok nC m)) by auto. cbn [bind].
  rewrite (proj2 (item_has _ _ _) H3). cbn [bind items]. eapply bad_name; eauto.
Qed.
Lemma empty_hole : describes_hole (YDict [("nRows", YInt 3); ("nCols", YInt 4); ("shapes", YDict [])]) 3 4 [] /\
  exists k, gen_dark_hole (YDict [("nRows", YInt 3); ("nCols", YInt 4); ("shapes", YDict [])]) = Ok k /\ ~ mask_bool k.
Proof.
  split.
  - split; [exists (YInt 3); split; [apply item_has; reflexivity|constructor]|].
    split; [exists (YInt 4); split; [apply item_has; reflexivity|constructor]|]. split; [lia|]. split; [lia|].
    exists []. split; [apply item_has; reflexivity|constructor].
  - eexists. split; [reflexivity|]. cbn. auto.
Qed.
