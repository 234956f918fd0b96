From Coq Require Import ZArith Bool List Reals Lra Lia Psatz.
From Coquelicot Require Import Complex Hierarchy Derive Rcomplements AutoDerive Continuity.
From Verif.Base Require Import Py CSum.
From Verif.Model Require Import ThinFilm.
Import ListNotations.
Open Scope R_scope.

(** * Complex helpers *)
Lemma C_eq (a b : C) : fst a = fst b -> snd a = snd b -> a = b.
Proof. destruct a, b; cbn; intros; subst; auto. Qed.
Lemma Ceqb_true a b : Ceqb a b = true <-> a = b.
Proof. unfold Ceqb. destruct (Ceq_dec a b); split; intros; auto; try discriminate; contradiction. Qed.
Lemma Ceqb_neq a b : a <> b -> negb (Ceqb a b) = true.
Proof. unfold Ceqb. destruct (Ceq_dec a b); auto; contradiction. Qed.
Lemma Cmod_sqr z : Cmod z ^ 2 = fst z * fst z + snd z * snd z.
Proof.
  unfold Cmod. rewrite pow2_sqrt; [cbn; ring|].
  generalize (pow2_ge_0 (fst z)) (pow2_ge_0 (snd z)). lra.
Qed.
Lemma Cmod_ge_abs z : Rabs (fst z) <= Cmod z.
Proof.
  unfold Cmod. rewrite <- (sqrt_Rsqr_abs (fst z)). apply sqrt_le_1_alt. unfold Rsqr.
  generalize (pow2_ge_0 (snd z)). lra.
Qed.
Lemma csqrt_sqr z : (csqrt z * csqrt z)%C = z.
Proof.
  assert (H := Cmod_ge_abs z). assert (Q := Cmod_sqr z).
  assert (H1 : 0 <= (Cmod z + fst z) / 2) by (destruct (Rabs_def2 _ _ (Rle_lt_trans _ _ (Cmod z + 1) H ltac:(lra))); generalize (Rle_abs (- fst z)); rewrite Rabs_Ropp; lra).
  assert (H2 : 0 <= (Cmod z - fst z) / 2) by (generalize (Rle_abs (fst z)); lra).
  apply C_eq; unfold csqrt; cbn [fst snd Cmult].
  - replace (sqrt ((Cmod z + fst z) / 2) * sqrt ((Cmod z + fst z) / 2) -
      (if Rlt_dec (snd z) 0 then -1 else 1) * sqrt ((Cmod z - fst z) / 2) * ((if Rlt_dec (snd z) 0 then -1 else 1) * sqrt ((Cmod z - fst z) / 2)))
      with (sqrt ((Cmod z + fst z) / 2) * sqrt ((Cmod z + fst z) / 2) - sqrt ((Cmod z - fst z) / 2) * sqrt ((Cmod z - fst z) / 2))
      by (destruct (Rlt_dec _ _); ring).
    rewrite !sqrt_sqrt; auto. lra.
  - transitivity (2 * (if Rlt_dec (snd z) 0 then -1 else 1) * (sqrt ((Cmod z + fst z) / 2) * sqrt ((Cmod z - fst z) / 2))); [ring|].
    rewrite <- sqrt_mult by auto.
    replace ((Cmod z + fst z) / 2 * ((Cmod z - fst z) / 2)) with ((snd z / 2)²)
      by (unfold Rsqr; replace ((Cmod z + fst z) / 2 * ((Cmod z - fst z) / 2)) with ((Cmod z ^ 2 - fst z * fst z) / 4) by (cbn; field); rewrite Q; field).
    rewrite sqrt_Rsqr_abs. destruct (Rlt_dec (snd z) 0).
    + rewrite Rabs_left by lra. lra.
    + rewrite Rabs_right by lra. lra.
Qed.
Lemma csqrt_re z : 0 <= fst (csqrt z).
Proof. unfold csqrt; cbn. apply sqrt_pos. Qed.
Lemma csqrt_im0 z : fst (csqrt z) = 0 -> snd z = 0 -> 0 <= snd (csqrt z).
Proof.
  unfold csqrt; cbn. intros _ ->. destruct (Rlt_dec 0 0); [lra|]. rewrite Rmult_1_l. apply sqrt_pos.
Qed.
Lemma cexp_add (a b : C) : cexp (a + b)%C = (cexp a * cexp b)%C.
Proof. unfold cexp. change (fst (a + b)%C) with (fst a + fst b). change (snd (a + b)%C) with (snd a + snd b). rewrite exp_plus, cis_add, RtoC_mult. ring. Qed.
Lemma cexp_0 : cexp 0 = 1%C.
Proof. unfold cexp. cbn. rewrite exp_0, cis_0. ring. Qed.
Lemma cexp_opp (a : C) : (cexp a * cexp (- a))%C = 1%C.
Proof. rewrite <- cexp_add. replace (a + - a)%C with (RtoC 0) by ring. apply cexp_0. Qed.
Lemma cexp_neq0 (a : C) : cexp a <> 0%C.
Proof. intros E. generalize (cexp_opp a). rewrite E, Cmult_0_l. intros H. apply RtoC_inj in H. lra. Qed.

(** * Matrices and amplitudes *)
Lemma mmul_assoc a b c : mmul (mmul a b) c = mmul a (mmul b c).
Proof. unfold mmul; cbn. f_equal; ring. Qed.
Lemma mmul_1_l a : mmul eye2 a = a.
Proof. destruct a; unfold mmul, eye2; cbn. f_equal; ring. Qed.
Lemma mmul_1_r a : mmul a eye2 = a.
Proof. destruct a; unfold mmul, eye2; cbn. f_equal; ring. Qed.
Lemma fold_mmul ps A :
  fold_left (fun A p => mmul A (film_matrix (fst p) (snd p))) ps A =
  mmul A (fold_left (fun A p => mmul A (film_matrix (fst p) (snd p))) ps eye2).
Proof.
  revert A. induction ps as [|p ps IH]; intros A; cbn [fold_left]; [now rewrite mmul_1_r|].
  rewrite IH, (IH (mmul eye2 _)), mmul_1_l, mmul_assoc. reflexivity.
Qed.
Lemma stack_cons a b l : stack_matrix (a :: b :: l) = mmul (film_matrix a b) (stack_matrix (b :: l)).
Proof.
  unfold stack_matrix, pairs. cbn [tl List.combine fold_left fst snd].
  rewrite fold_mmul, mmul_1_l. reflexivity.
Qed.
Lemma stack_one a : stack_matrix [a] = eye2.
Proof. reflexivity. Qed.
Lemma finite_cons t a b l : stack_finite t (a :: b :: l) =
  (if t then negb (Ceqb (l_n a) 0) else true) && boundary_finite (a, b) && stack_finite t (b :: l).
Proof.
  unfold stack_finite, pairs. cbn [tl List.combine forallb].
  destruct t; cbn [andb]; [|destruct l; reflexivity].
  destruct (negb (Ceqb (l_n a) 0)), (boundary_finite (a, b)), (negb (Ceqb (l_n b) 0)), (forallb (fun l0 : layer => negb (Ceqb (l_n l0) 0)) l); reflexivity.
Qed.

(** Fields at the left edge of medium [a] behind its phase: sum and kzz-weighted difference are continuous. *)
Lemma film_action a b f g : l_kzz a <> 0%C -> (l_kzz a + l_kzz b)%C <> 0%C ->
  exists F G,
    ((m00 (film_matrix a b) * f + m01 (film_matrix a b) * g) = cexp (- Ci * l_kz a * RtoC (l_d a)) * F /\
     (m10 (film_matrix a b) * f + m11 (film_matrix a b) * g) = cexp (Ci * l_kz a * RtoC (l_d a)) * G /\
     F + G = f + g /\ l_kzz a * (F - G) = l_kzz b * (f - g))%C.
Proof.
  intros Ha Hs. set (tin := (RtoC (/ 2) * (l_kzz a + l_kzz b) / l_kzz a)%C).
  set (ri := ((l_kzz a - l_kzz b) / (l_kzz a + l_kzz b))%C).
  assert (H2 : (RtoC (/ 2) * RtoC 2)%C = RtoC 1) by (rewrite <- RtoC_mult; f_equal; lra).
  exists (tin * (f + ri * g))%C, (tin * (ri * f + g))%C.
  unfold film_matrix. cbn [m00 m01 m10 m11]. fold tin. fold ri. repeat split.
  - ring.
  - ring.
  - replace (tin * (f + ri * g) + tin * (ri * f + g))%C with (tin * (1 + ri) * (f + g))%C by ring.
    replace (tin * (1 + ri))%C with (RtoC (/ 2) * RtoC 2)%C; [rewrite H2; ring|].
    unfold tin, ri. replace (RtoC 2) with (1 + 1)%C by (rewrite <- RtoC_plus; reflexivity). field. auto.
  - replace (l_kzz a * (tin * (f + ri * g) - tin * (ri * f + g)))%C with (l_kzz a * tin * (1 - ri) * (f - g))%C by ring.
    f_equal. replace (l_kzz a * tin * (1 - ri))%C with (RtoC (/ 2) * RtoC 2 * l_kzz b)%C; [rewrite H2; ring|].
    unfold tin, ri. replace (RtoC 2) with (1 + 1)%C by (rewrite <- RtoC_plus; reflexivity). field. auto.
Qed.

(** * Power flux *)
Definition flux (k f g : C) : R := fst (Cconj (k * (f - g)) * (f + g))%C.
Definition loss1 (kz k : C) : R := fst k * snd kz + snd k * fst kz.
Definition loss2 (kz k : C) : R := fst k * snd kz - snd k * fst kz.

Lemma cexp_pm (kz : C) d : cexp (- Ci * kz * RtoC d)%C = (exp (snd kz * d) * cos (fst kz * d), - (exp (snd kz * d) * sin (fst kz * d)))
  /\ cexp (Ci * kz * RtoC d)%C = (exp (- (snd kz * d)) * cos (fst kz * d), exp (- (snd kz * d)) * sin (fst kz * d)).
Proof.
  destruct kz as [al be]. unfold cexp, cis, Ci, RtoC, Cmult, Copp. cbn [fst snd].
  replace ((- 0 * al - - (1) * be) * d - (- 0 * be + - (1) * al) * 0) with (be * d) by ring.
  replace ((- 0 * al - - (1) * be) * 0 + (- 0 * be + - (1) * al) * d) with (- (al * d)) by ring.
  replace ((0 * al - 1 * be) * d - (0 * be + 1 * al) * 0) with (- (be * d)) by ring.
  replace ((0 * al - 1 * be) * 0 + (0 * be + 1 * al) * d) with (al * d) by ring.
  rewrite cos_neg, sin_neg. split; apply C_eq; cbn; ring.
Qed.

Section Phase.
Variables (kz k F G : C).
Let f (d : R) : C := (cexp (- Ci * kz * RtoC d) * F)%C.
Let g (d : R) : C := (cexp (Ci * kz * RtoC d) * G)%C.
Definition phase_flux (d : R) : R := flux k (f d) (g d).
Definition sq2 (z : C) : R := fst z * fst z + snd z * snd z.
Lemma phase_derive (d : R) : is_derive (phase_flux : R -> R) d (loss1 kz k * sq2 (f d + g d)%C + loss2 kz k * sq2 (f d - g d)%C).
Proof.
  apply is_derive_ext with (f := fun d =>
    let f1 := exp (snd kz * d) * (cos (fst kz * d) * fst F + sin (fst kz * d) * snd F) in
    let f2 := exp (snd kz * d) * (cos (fst kz * d) * snd F - sin (fst kz * d) * fst F) in
    let g1 := exp (- (snd kz * d)) * (cos (fst kz * d) * fst G - sin (fst kz * d) * snd G) in
    let g2 := exp (- (snd kz * d)) * (cos (fst kz * d) * snd G + sin (fst kz * d) * fst G) in
    (fst k * (f1 - g1) - snd k * (f2 - g2)) * (f1 + g1) + (fst k * (f2 - g2) + snd k * (f1 - g1)) * (f2 + g2)).
  - intros t. match goal with |- ?a = ?b => change (@eq R a b) end. unfold phase_flux, flux, f, g. destruct (cexp_pm kz t) as [-> ->].
    unfold Cconj, Cminus, Cmult, Cplus, Copp; cbn [fst snd]. ring.
  - cbv zeta. auto_derive; [auto|].
    unfold f, g. destruct (cexp_pm kz d) as [-> ->].
    unfold sq2, loss1, loss2, Cconj, Cminus, Cmult, Cplus, Copp; cbn [fst snd]. ring.
Qed.
Lemma phase_flux_0 : phase_flux 0 = flux k F G.
Proof.
  unfold phase_flux, f, g.
  replace (- Ci * kz * 0)%C with (RtoC 0) by ring. replace (Ci * kz * 0)%C with (RtoC 0) by ring.
  rewrite cexp_0, !Cmult_1_l. reflexivity.
Qed.
Lemma sq2_pos z : 0 <= sq2 z.
Proof. unfold sq2. nra. Qed.
Lemma phase_flux_le d : 0 <= d -> loss1 kz k <= 0 -> loss2 kz k <= 0 -> phase_flux d <= flux k F G.
Proof.
  intros Hd H1 H2. rewrite <- phase_flux_0.
  destruct (MVT_gen phase_flux 0 d (fun d => loss1 kz k * sq2 (f d + g d)%C + loss2 kz k * sq2 (f d - g d)%C)) as [c [_ E]].
  - intros x _. apply phase_derive.
  - intros x _. apply derivable_continuous_pt. exists (loss1 kz k * sq2 (f x + g x)%C + loss2 kz k * sq2 (f x - g x)%C).
    apply is_derive_Reals, phase_derive.
  - assert (P1 := sq2_pos (f c + g c)%C). assert (P2 := sq2_pos (f c - g c)%C).
    revert E P1 P2. generalize (sq2 (f c + g c)%C) (sq2 (f c - g c)%C). intros u v E P1 P2.
    assert (Q1 : loss1 kz k * u <= 0) by nra. assert (Q2 : loss2 kz k * v <= 0) by nra.
    assert (Q3 : (loss1 kz k * u + loss2 kz k * v) * (d - 0) <= 0) by nra. lra.
Qed.
Lemma phase_flux_eq d : loss1 kz k = 0 -> loss2 kz k = 0 -> phase_flux d = flux k F G.
Proof.
  intros H1 H2. rewrite <- phase_flux_0.
  destruct (MVT_gen phase_flux 0 d (fun d => loss1 kz k * sq2 (f d + g d)%C + loss2 kz k * sq2 (f d - g d)%C)) as [c [_ E]].
  - intros x _. apply phase_derive.
  - intros x _. apply derivable_continuous_pt. exists (loss1 kz k * sq2 (f x + g x)%C + loss2 kz k * sq2 (f x - g x)%C).
    apply is_derive_Reals, phase_derive.
  - rewrite H1, H2 in E. lra.
Qed.
End Phase.

Lemma flux_fields k k' F G f g : (F + G = f + g)%C -> (k * (F - G) = k' * (f - g))%C -> flux k F G = flux k' f g.
Proof. intros E1 E2. unfold flux. rewrite E1, E2. reflexivity. Qed.

(** * Layers *)
Definition down (k : C) : Prop := fst k < 0 \/ (fst k = 0 /\ snd k < 0).
Lemma down_neq0 k : down k -> k <> 0%C.
Proof. intros [H|[H H']] ->; cbn in *; lra. Qed.
Lemma down_plus k k' : down k -> down k' \/ k' = 0%C -> down (k + k')%C.
Proof.
  intros [H|[H H']] [[H2|[H2 H2']]| ->]; unfold down, Cplus; cbn [fst snd RtoC] in *; try (left; lra); right; lra.
Qed.
Definition lossless (l : layer) : Prop := loss1 (l_kz l) (l_kzz l) = 0 /\ loss2 (l_kz l) (l_kzz l) = 0.
Definition lossy (l : layer) : Prop := loss1 (l_kz l) (l_kzz l) <= 0 /\ loss2 (l_kz l) (l_kzz l) <= 0 /\ 0 <= l_d l.

Fixpoint inner_down (ls : list layer) : Prop :=
  match ls with
  | [] => False
  | [z] => down (l_kzz z) \/ l_kzz z = 0%C
  | a :: l => down (l_kzz a) /\ inner_down l
  end.
Lemma inner_down_cons a b l : inner_down (a :: b :: l) <-> down (l_kzz a) /\ inner_down (b :: l).
Proof. reflexivity. Qed.
Lemma inner_down_hd b l : inner_down (b :: l) -> down (l_kzz b) \/ l_kzz b = 0%C.
Proof. destruct l; cbn; tauto. Qed.

Lemma boundaries_finite ls : inner_down ls -> forallb boundary_finite (pairs ls) = true.
Proof.
  induction ls as [|a [|b l] IH]; auto. intros H. destruct (proj1 (inner_down_cons _ _ _) H) as [H1 H2].
  change (pairs (a :: b :: l)) with ((a, b) :: pairs (b :: l)). cbn [forallb]. rewrite IH by auto. rewrite andb_true_r.
  unfold boundary_finite. cbn [fst snd]. rewrite !Ceqb_neq; auto.
  - apply down_neq0, down_plus; auto. eapply inner_down_hd; eauto.
  - now apply down_neq0.
Qed.

Definition e0 (ls : list layer) : C := m00 (stack_matrix ls).
Definition e1 (ls : list layer) : C := m10 (stack_matrix ls).
Lemma stack_step a b l : inner_down (a :: b :: l) ->
  exists F G,
    (e0 (a :: b :: l) = cexp (- Ci * l_kz a * RtoC (l_d a)) * F /\
     e1 (a :: b :: l) = cexp (Ci * l_kz a * RtoC (l_d a)) * G /\
     F + G = e0 (b :: l) + e1 (b :: l) /\ l_kzz a * (F - G) = l_kzz b * (e0 (b :: l) - e1 (b :: l)))%C.
Proof.
  intros H. destruct (proj1 (inner_down_cons _ _ _) H) as [H1 H2].
  unfold e0, e1. rewrite stack_cons. unfold mmul. cbn [m00 m10]. apply film_action.
  - now apply down_neq0.
  - apply down_neq0, down_plus; auto. eapply inner_down_hd; eauto.
Qed.

Lemma amp_neq0 ls : inner_down ls -> (e0 ls + e1 ls)%C <> 0%C \/ (e0 ls - e1 ls)%C <> 0%C.
Proof.
  induction ls as [|a [|b l] IH]; intros H; [destruct H| |].
  - left. unfold e0, e1. cbn. intros E. rewrite Cplus_0_r in E. apply RtoC_inj in E. lra.
  - destruct (stack_step a b l H) as [F [G [E0 [E1 [E2 E3]]]]].
    destruct (proj1 (inner_down_cons _ _ _) H) as [H1 H2].
    destruct (Ceq_dec (e0 (a :: b :: l)) 0) as [Z0|]; [destruct (Ceq_dec (e1 (a :: b :: l)) 0) as [Z1|]|].
    + exfalso. assert (F0 : F = 0%C).
      { assert (X := cexp_neq0 (- Ci * l_kz a * RtoC (l_d a))%C). rewrite E0 in Z0.
        destruct (Ceq_dec F 0); auto. exfalso. now apply (Cmult_neq_0 _ F X). }
      assert (G0 : G = 0%C).
      { assert (X := cexp_neq0 (Ci * l_kz a * RtoC (l_d a))%C). rewrite E1 in Z1.
        destruct (Ceq_dec G 0); auto. exfalso. now apply (Cmult_neq_0 _ G X). }
      subst F G. destruct (IH H2) as [N|N].
      * apply N. rewrite <- E2. ring.
      * destruct l as [|c l].
        { unfold e0, e1 in E2. cbn in E2. rewrite !Cplus_0_r in E2. apply RtoC_inj in E2. lra. }
        destruct H2 as [D _]. apply down_neq0 in D. apply (Cmult_neq_0 _ _ D N). rewrite <- E3. ring.
    + destruct (Ceq_dec (e0 (a :: b :: l) + e1 (a :: b :: l))%C 0); auto. left. rewrite Z0, Cplus_0_l. auto.
    + destruct (Ceq_dec (e0 (a :: b :: l) + e1 (a :: b :: l))%C 0) as [P|]; auto.
      destruct (Ceq_dec (e0 (a :: b :: l) - e1 (a :: b :: l))%C 0) as [M|]; auto. exfalso. apply n.
      assert (X : (RtoC 2 * e0 (a :: b :: l))%C = 0%C).
      { replace (RtoC 2) with (1 + 1)%C by (rewrite <- RtoC_plus; reflexivity).
        transitivity ((e0 (a :: b :: l) + e1 (a :: b :: l)) + (e0 (a :: b :: l) - e1 (a :: b :: l)))%C; [ring|].
        rewrite P, M. ring. }
      destruct (Ceq_dec (e0 (a :: b :: l)) 0); auto. exfalso. apply (Cmult_neq_0 (RtoC 2) (e0 (a :: b :: l))); auto.
      intros Q; apply RtoC_inj in Q; lra.
Qed.

Lemma stack_flux ls z : inner_down ls -> ls <> [] -> (forall l, In l ls -> lossy l \/ lossless l) ->
  flux (l_kzz (hd z ls)) (e0 ls) (e1 ls) <= fst (l_kzz (last ls z)).
Proof.
  induction ls as [|a [|b l] IH]; intros H N L; [contradiction| |].
  - unfold flux, e0, e1. rewrite stack_one. cbn. lra.
  - destruct (stack_step a b l H) as [F [G [E0 [E1 [E2 E3]]]]].
    destruct (proj1 (inner_down_cons _ _ _) H) as [H1 H2]. cbn [hd].
    change (last (a :: b :: l) z) with (last (b :: l) z). rewrite E0, E1.
    change (phase_flux (l_kz a) (l_kzz a) F G (l_d a) <= fst (l_kzz (last (b :: l) z))).
    apply Rle_trans with (flux (l_kzz a) F G).
    + destruct (L a (or_introl eq_refl)) as [[A [B D]]|[A B]].
      * apply phase_flux_le; auto.
      * rewrite phase_flux_eq; auto. lra.
    + rewrite (flux_fields _ _ _ _ _ _ E2 E3). apply IH; auto; [discriminate|].
      intros x Hx. apply L. now right.
Qed.
Lemma stack_flux_eq ls z : inner_down ls -> ls <> [] -> (forall l, In l ls -> lossless l) ->
  flux (l_kzz (hd z ls)) (e0 ls) (e1 ls) = fst (l_kzz (last ls z)).
Proof.
  induction ls as [|a [|b l] IH]; intros H N L; [contradiction| |].
  - unfold flux, e0, e1. rewrite stack_one. cbn. lra.
  - destruct (stack_step a b l H) as [F [G [E0 [E1 [E2 E3]]]]].
    destruct (proj1 (inner_down_cons _ _ _) H) as [H1 H2]. cbn [hd].
    change (last (a :: b :: l) z) with (last (b :: l) z). rewrite E0, E1.
    change (phase_flux (l_kz a) (l_kzz a) F G (l_d a) = fst (l_kzz (last (b :: l) z))).
    destruct (L a (or_introl eq_refl)) as [A B]. rewrite phase_flux_eq; auto.
    rewrite (flux_fields _ _ _ _ _ _ E2 E3). apply IH; auto; [discriminate|].
    intros x Hx. apply L. now right.
Qed.
Lemma flux_real k f g : snd k = 0 -> flux k f g = fst k * (Cmod f ^ 2 - Cmod g ^ 2).
Proof.
  intros E. rewrite !Cmod_sqr. unfold flux. destruct k as [k1 k2], f, g; cbn in E; subst.
  unfold Cconj, Cminus, Cmult, Cplus, Copp; cbn [fst snd]. ring.
Qed.

(** * Layers built from indices *)
From Verif.Spec Require Import ThinFilmSpec.
Section Medium.
Variables (x0 theta lam : R).
Hypothesis (Hx : 0 < x0) (Ht0 : 0 <= theta) (Ht1 : theta < PI / 2) (Hl : 0 < lam).
Let K := 2 * PI / lam.
Let kx := K * x0 * sin theta.
Lemma K_pos : 0 < K.
Proof. unfold K. apply Rdiv_lt_0_compat; auto. generalize PI_RGT_0. lra. Qed.
Definition wsq (n : C) : C := (K * K * (fst n * fst n - snd n * snd n) - kx * kx, K * K * (2 * fst n * snd n)).
Lemma kz_def t n d : l_kz (mk_layer (RtoC x0) theta lam t n d) = (- csqrt (wsq n))%C.
Proof.
  unfold mk_layer. cbn [l_kz]. f_equal. f_equal.
  assert (E1 : (RtoC (2 * PI) * n / RtoC lam)%C = (K * fst n, K * snd n)).
  { unfold Cdiv. rewrite <- RtoC_inv by lra. unfold K. apply C_eq; unfold Cmult, RtoC; cbn [fst snd]; field; lra. }
  assert (E2 : (RtoC (2 * PI) * RtoC x0 * RtoC (sin theta) / RtoC lam)%C = RtoC kx).
  { rewrite <- RtoC_mult, <- RtoC_mult, <- RtoC_div by lra. f_equal. unfold kx, K. field. lra. }
  rewrite E1, E2. unfold wsq. apply C_eq; unfold Cminus, Cplus, Copp, Cmult, RtoC; cbn [fst snd]; ring.
Qed.
(** kz = (-p, -r) *)
Lemma kz_parts t n d : passive n -> exists p r,
  l_kz (mk_layer (RtoC x0) theta lam t n d) = (- p, - r) /\ 0 <= p /\
  p * p - r * r = K * K * (fst n * fst n - snd n * snd n) - kx * kx /\ 2 * p * r = K * K * (2 * fst n * snd n) /\
  (p = 0 -> 0 <= r).
Proof.
  intros [Ha Hb]. rewrite kz_def. assert (Q := csqrt_sqr (wsq n)).
  assert (P := csqrt_re (wsq n)). assert (I := csqrt_im0 (wsq n)).
  destruct (csqrt (wsq n)) as [p r]. cbn [fst snd] in *.
  assert (Q1 := f_equal fst Q). assert (Q2 := f_equal snd Q). unfold wsq, Cmult in Q1, Q2. cbn [fst snd] in Q1, Q2.
  exists p, r. repeat split; auto; try lra.
  intros E. apply I; auto. rewrite E in Q2. unfold wsq. cbn [snd]. lra.
Qed.
Lemma n2_pos n : passive n -> (n * n)%C <> 0%C.
Proof. intros [Ha Hb] E. assert (n <> 0%C) by (intros ->; cbn in Ha; lra). now apply (Cmult_neq_0 n n). Qed.
Lemma kzz_parts t n d : passive n -> exists p r u v,
  l_kz (mk_layer (RtoC x0) theta lam t n d) = (- p, - r) /\ 0 <= p /\ (p = 0 -> 0 <= r) /\ p * r <= 0 /\
  K * K * u = p * p - r * r + kx * kx /\ K * K * v = 2 * p * r /\ v <= 0 /\ 0 < u * u + v * v /\ (v = 0 -> 0 < u) /\
  (snd n = 0 -> v = 0) /\
  l_kzz (mk_layer (RtoC x0) theta lam t n d) =
    (if t then ((- p * u - r * v) / (u * u + v * v), (p * v - r * u) / (u * u + v * v)) else (- p, - r)).
Proof.
  intros Hn. destruct (kz_parts t n d Hn) as [p [r [E [P [Q1 [Q2 I]]]]]]. assert (N := n2_pos n Hn).
  assert (HK := K_pos). destruct Hn as [Ha Hb].
  exists p, r, (fst n * fst n - snd n * snd n), (2 * fst n * snd n).
  assert (D : 0 < (fst n * fst n - snd n * snd n) * (fst n * fst n - snd n * snd n) + 2 * fst n * snd n * (2 * fst n * snd n)).
  { replace (_ + _) with ((fst n * fst n + snd n * snd n) * (fst n * fst n + snd n * snd n)) by ring.
    assert (0 < fst n * fst n + snd n * snd n) by nra. nra. }
  assert (V : 2 * fst n * snd n <= 0) by nra.
  repeat split; auto; try lra.
  - assert (0 <= K * K) by nra. assert (K * K * (2 * fst n * snd n) <= 0) by nra. nra.
  - intros V0. assert (snd n = 0) by nra. rewrite H. nra.
  - intros ->. ring.
  - change (l_kzz (mk_layer (RtoC x0) theta lam t n d)) with
      (if t then (l_kz (mk_layer (RtoC x0) theta lam t n d) / (n * n))%C else l_kz (mk_layer (RtoC x0) theta lam t n d)).
    rewrite E. destruct t; auto. unfold Cdiv, Cinv, Cmult. cbn [fst snd].
    apply C_eq; cbn [fst snd]; field; nra.
Qed.
Lemma medium_lossy t n d : passive n -> 0 <= d -> lossy (mk_layer (RtoC x0) theta lam t n d).
Proof.
  intros Hn Hd. destruct (kzz_parts t n d Hn) as [p [r [u [v [E [P [I [PR [U [V [V0 [D [U0 [_ Ez]]]]]]]]]]]]]].
  assert (HK := K_pos). unfold lossy, loss1, loss2. rewrite E, Ez. destruct t; cbn [fst snd mk_layer l_d]; repeat split; auto; try lra.
  - replace (_ + _) with (((p * p - r * r) * - v + 2 * p * r * u) / (u * u + v * v)) by (field; lra).
    apply Rle_div_l; auto. rewrite Rmult_0_l.
    apply Rmult_le_reg_l with (K * K); [nra|]. rewrite Rmult_0_r.
    replace (K * K * ((p * p - r * r) * - v + 2 * p * r * u)) with (- (p * p - r * r) * (K * K * v) + 2 * p * r * (K * K * u)) by ring.
    rewrite U, V. replace (_ + _) with (2 * (p * r) * (kx * kx)) by ring. assert (0 <= kx * kx) by nra. nra.
  - replace (_ - _) with ((p * p + r * r) * v / (u * u + v * v)) by (field; lra).
    apply Rle_div_l; auto. nra.
Qed.
Lemma medium_lossless t n d : transparent n -> lossless (mk_layer (RtoC x0) theta lam t n d).
Proof.
  intros [Ha Hb]. destruct (kzz_parts t n d (conj Ha (Req_le _ _ Hb))) as [p [r [u [v [E [P [I [PR [U [V [V0 [D [U0 [V1 Ez]]]]]]]]]]]]]].
  assert (HK := K_pos). specialize (V1 Hb). subst v. unfold lossless, loss1, loss2. rewrite E, Ez.
  assert (Z : p * r = 0) by lra.
  destruct t; cbn [fst snd]; split; try lra.
  - replace (_ + _) with (2 * (p * r) * u / (u * u + 0 * 0)) by (field; lra). rewrite Z. unfold Rdiv. ring.
Qed.
Lemma medium_down t n d : passive n -> down (l_kzz (mk_layer (RtoC x0) theta lam t n d)) \/ l_kzz (mk_layer (RtoC x0) theta lam t n d) = 0%C.
Proof.
  intros Hn. destruct (kzz_parts t n d Hn) as [p [r [u [v [E [P [I [PR [U [V [V0 [D [U0 [_ Ez]]]]]]]]]]]]]].
  assert (HK := K_pos). rewrite Ez. destruct (Req_dec p 0) as [->|Np].
  - assert (R0 := I eq_refl). assert (v = 0). { assert (K * K * v = 0) by lra. assert (0 < K * K) by nra. apply Rmult_integral in H. destruct H; lra. }
    subst v. specialize (U0 eq_refl). destruct (Req_dec r 0) as [->|Nr].
    + right. destruct t; apply C_eq; cbn [fst snd RtoC]; try lra; unfold Rdiv; ring.
    + left. right. destruct t; cbn [fst snd]; split; try lra.
      apply Rlt_div_l; auto. nra.
  - left. left. destruct t; cbn [fst snd]; [|lra]. apply Rlt_div_l; auto. rewrite Rmult_0_l.
    apply Rmult_lt_reg_l with (K * K); [nra|]. rewrite Rmult_0_r.
    replace (K * K * (- p * u - r * v)) with (- p * (K * K * u) - r * (K * K * v)) by ring. rewrite U, V.
    replace (_ - _) with (- (p * (p * p + r * r + kx * kx))) by ring.
    assert (0 < p * (p * p + r * r + kx * kx)) by (apply Rmult_lt_0_compat; nra). lra.
Qed.
Lemma medium_zero t n d : passive n -> l_kzz (mk_layer (RtoC x0) theta lam t n d) = 0%C <-> grazing x0 theta n.
Proof.
  intros Hn. assert (HK := K_pos).
  assert (A : l_kzz (mk_layer (RtoC x0) theta lam t n d) = 0%C <-> l_kz (mk_layer (RtoC x0) theta lam t n d) = 0%C).
  { change (l_kzz (mk_layer (RtoC x0) theta lam t n d)) with
      (if t then (l_kz (mk_layer (RtoC x0) theta lam t n d) / (n * n))%C else l_kz (mk_layer (RtoC x0) theta lam t n d)).
    destruct t; [|tauto]. assert (N := n2_pos n Hn). split; intros H.
    - transitivity (l_kz (mk_layer (RtoC x0) theta lam true n d) / (n * n) * (n * n))%C; [|rewrite H; ring].
      unfold Cdiv. rewrite <- Cmult_assoc, (Cmult_comm (/ (n * n))%C), Cinv_r by auto. ring.
    - rewrite H. unfold Cdiv. ring. }
  rewrite A, kz_def. unfold grazing.
  assert (B : wsq n = (RtoC (K * K) * (n * n - RtoC ((x0 * sin theta) ^ 2)))%C).
  { unfold wsq, kx. apply C_eq; unfold Cminus, Cplus, Copp, Cmult, RtoC; cbn [fst snd]; ring. }
  split; intros H.
  - assert (W : wsq n = 0%C).
    { transitivity (csqrt (wsq n) * csqrt (wsq n))%C; [symmetry; apply csqrt_sqr|].
      transitivity ((- csqrt (wsq n)) * (- csqrt (wsq n)))%C; [ring|]. rewrite H. ring. }
    rewrite B in W. destruct (Ceq_dec (n * n - RtoC ((x0 * sin theta) ^ 2))%C 0) as [Z|Z].
    + transitivity (n * n - RtoC ((x0 * sin theta) ^ 2) + RtoC ((x0 * sin theta) ^ 2))%C; [ring|]. rewrite Z. ring.
    + exfalso. apply (Cmult_neq_0 (RtoC (K * K)) _) in Z; auto. intros X. apply RtoC_inj in X. nra.
  - assert (W : wsq n = 0%C) by (rewrite B, H; ring). rewrite W.
    assert (Q := csqrt_sqr 0%C). destruct (Ceq_dec (csqrt 0) 0) as [Z|Z]; [rewrite Z; ring|].
    exfalso. now apply (Cmult_neq_0 _ _ Z Z).
Qed.
Lemma cos_theta_pos : 0 < cos theta.
Proof. apply cos_gt_0; lra. Qed.
Lemma incident_kzz t d : exists c, 0 < c /\ l_kzz (mk_layer (RtoC x0) theta lam t (RtoC x0) d) = RtoC (- c).
Proof.
  assert (Hn : passive (RtoC x0)) by (split; cbn; lra).
  destruct (kzz_parts t (RtoC x0) d Hn) as [p [r [u [v [E [P [I [PR [U [V [V0 [D [U0 [V1 Ez]]]]]]]]]]]]]].
  specialize (V1 eq_refl). subst v. specialize (U0 eq_refl). assert (HK := K_pos).
  assert (C0 := cos_theta_pos).
  destruct (kz_parts t (RtoC x0) d Hn) as [p' [r' [E' [_ [Q1 _]]]]]. rewrite E in E'. injection E' as Ep Er.
  assert (p' = p) by lra. assert (r' = r) by lra. subst p' r'. cbn [fst snd RtoC] in Q1.
  assert (S2 := sin2_cos2 theta). unfold Rsqr in S2.
  assert (W : 0 < p * p - r * r).
  { rewrite Q1. unfold kx. replace (_ - _) with (K * K * (x0 * x0) * (1 - sin theta * sin theta)) by ring.
    replace (1 - sin theta * sin theta) with (cos theta * cos theta) by lra.
    apply Rmult_lt_0_compat; apply Rmult_lt_0_compat; nra. }
  assert (Z : p * r = 0) by lra. assert (Np : p <> 0) by (intros ->; nra).
  assert (r = 0) by (apply Rmult_integral in Z; tauto). subst r.
  rewrite Ez. destruct t.
  - exists (p / u). split; [apply Rdiv_lt_0_compat; lra|]. replace (u * u + 0 * 0) with (u * u) by ring. apply C_eq; unfold RtoC; cbn [fst snd]; field; lra.
  - exists p. split; [lra|]. apply C_eq; unfold RtoC; cbn [fst snd]; ring.
Qed.
End Medium.

(** * The solver *)
Definition layers (n0 : C) theta lam t (films : list (C * R)) (final : C) : list layer :=
  mk_layer n0 theta lam t n0 0 :: map (fun p => mk_layer n0 theta lam t (fst p) (snd p)) films ++ [mk_layer n0 theta lam t final 0].
Lemma combine_films (films : list (C * R)) (x y : C) (a b : R) :
  List.combine (x :: map fst films ++ [y]) (a :: map snd films ++ [b]) = (x, a) :: films ++ [(y, b)].
Proof. cbn. f_equal. induction films as [|[u v] l IH]; cbn; [auto|now rewrite IH]. Qed.
Lemma layers_ok n0 theta lam t films final :
  map (fun p => mk_layer n0 theta lam t (fst p) (snd p)) (List.combine (n0 :: map fst films ++ [final]) (0 :: map snd films ++ [0])) =
  layers n0 theta lam t films final.
Proof. rewrite combine_films. unfold layers. cbn. rewrite map_app. reflexivity. Qed.
Lemma layers_last n0 theta lam t films final z : last (layers n0 theta lam t films final) z = mk_layer n0 theta lam t final 0.
Proof. unfold layers. rewrite app_comm_cons, last_last. reflexivity. Qed.

Definition solve_layers (t : bool) (ls : list layer) (first final : layer) : option outputs :=
  let A := stack_matrix ls in
  if stack_finite t ls && negb (Ceqb (m00 A) 0) then
    let rr := (m10 A / m00 A)%C in
    let tt := (1 / m00 A)%C in
    let Pn := if t then fst ((l_kz final / (l_n final * l_n final)) / (l_kz first / (l_n first * l_n first)))%C
              else fst (l_kz final / l_kz first)%C in
    Some (Cmod rr ^ 2, Pn * Cmod tt ^ 2, rr, if Rle_dec 0 Pn then Some (RtoC (sqrt Pn) * tt)%C else None)
  else None.
Lemma solver_eq n0 films final theta lam t : 0 <= theta -> theta < PI / 2 -> 0 < lam ->
  solver (n0 :: map fst films ++ [final]) (map snd films) theta lam t =
  Ok (solve_layers t (layers n0 theta lam t films final) (mk_layer n0 theta lam t n0 0) (mk_layer n0 theta lam t final 0)).
Proof.
  intros H0 H1 Hl. unfold solver.
  replace (Z.of_nat (List.length (map snd films)) =? Z.of_nat (List.length (n0 :: map fst films ++ [final])) - 2)%Z with true
    by (symmetry; apply Z.eqb_eq; cbn [List.length]; rewrite app_length, !map_length; cbn [List.length]; lia).
  unfold nonneg_real, lt_real. destruct (Rle_dec 0 theta); [|contradiction]. destruct (Rlt_dec theta (PI / 2)); [|contradiction].
  destruct (Rlt_dec 0 lam); [|contradiction]. cbn [guard bind hd].
  rewrite layers_ok. cbn [hd]. unfold solve_layers.
  change (hd (mk_layer n0 theta lam t n0 0) (layers n0 theta lam t films final)) with (mk_layer n0 theta lam t n0 0).
  rewrite layers_last. destruct (_ && _); reflexivity.
Qed.
Lemma solver_lengths n d0 theta lam t o : solver n d0 theta lam t = Ok o ->
  exists n0 films final, n = n0 :: map fst films ++ [final] /\ d0 = map snd films /\ 0 <= theta /\ theta < PI / 2 /\ 0 < lam.
Proof.
  unfold solver. intros H.
  destruct (Z.eqb_spec (Z.of_nat (List.length d0)) (Z.of_nat (List.length n) - 2)) as [E|]; [|discriminate].
  unfold nonneg_real, lt_real in H.
  destruct (Rle_dec 0 theta) as [A|]; [|discriminate]. destruct (Rlt_dec theta (PI / 2)) as [B|]; [|discriminate].
  destruct (Rlt_dec 0 lam) as [D|]; [|discriminate]. clear H.
  destruct n as [|n0 n]; [cbn [List.length] in E; lia|]. destruct (exists_last (l := n)) as [m [final ->]].
  { intros ->. cbn [List.length] in E. lia. }
  exists n0, (List.combine m d0), final. cbn [List.length] in E. rewrite app_length in E. cbn [List.length] in E.
  assert (L : List.length m = List.length d0) by lia. clear E.
  assert (M1 : map fst (List.combine m d0) = m /\ map snd (List.combine m d0) = d0).
  { revert d0 L. induction m as [|x m IH]; intros [|y d0] L; try discriminate; auto.
    cbn. destruct (IH d0) as [-> ->]; auto. }
  destruct M1 as [-> ->]. auto.
Qed.

Section Passive.
Variables (x0 theta lam : R) (t : bool).
Hypothesis (Hx : 0 < x0) (Ht0 : 0 <= theta) (Ht1 : theta < PI / 2) (Hl : 0 < lam).
Variables (films : list (C * R)) (final : C).
Hypothesis (Hf : forall p, In p films -> passive (fst p) /\ ~ grazing x0 theta (fst p) /\ (0 <= snd p \/ transparent (fst p))).
Hypothesis (Hfin : passive final).
Let mk := mk_layer (RtoC x0) theta lam t.
Let ls := layers (RtoC x0) theta lam t films final.
Lemma pv_x0 : passive (RtoC x0). Proof. split; cbn; lra. Qed.
Lemma pv_down_tail : inner_down (map (fun p => mk (fst p) (snd p)) films ++ [mk final 0]).
Proof.
  clear ls. induction films as [|p l IH].
  - exact (medium_down x0 theta lam Hl t final 0 Hfin).
  - cbn [map app].
    assert (D : down (l_kzz (mk (fst p) (snd p)))).
    { destruct (Hf p (or_introl eq_refl)) as [A [B _]]. destruct (medium_down x0 theta lam Hl t (fst p) (snd p) A) as [|Z]; auto.
      exfalso. apply B. apply (proj1 (medium_zero x0 theta lam Hl t (fst p) (snd p) A)). auto. }
    destruct (map (fun p => mk (fst p) (snd p)) l ++ [mk final 0]) as [|b l'] eqn:E; [destruct l; discriminate|].
    apply inner_down_cons. split; auto. apply IH. intros q Hq. apply Hf. now right.
Qed.
Lemma pv_down : inner_down ls.
Proof.
  unfold ls, layers. assert (T := pv_down_tail). unfold mk in T.
  destruct (map (fun p => mk_layer (RtoC x0) theta lam t (fst p) (snd p)) films ++ [mk_layer (RtoC x0) theta lam t final 0]) as [|b l'] eqn:E; [destruct films; discriminate|].
  apply inner_down_cons. split; auto.
  destruct (incident_kzz x0 theta lam Hx Ht0 Ht1 Hl t 0) as [c [Hc ->]]. left. cbn. lra.
Qed.
Lemma pv_layers l : In l ls -> lossy l \/ lossless l.
Proof.
  unfold ls, layers. intros [<-|H].
  - right. apply medium_lossless; auto. split; cbn; lra.
  - apply in_app_or in H. destruct H as [H|[<-|[]]].
    + apply in_map_iff in H. destruct H as [p [<- Hp]]. destruct (Hf p Hp) as [A [_ [D|T]]].
      * left. apply medium_lossy; auto.
      * right. apply medium_lossless; auto.
    + left. apply medium_lossy; auto. lra.
Qed.
Lemma pv_finite : stack_finite t ls = true.
Proof.
  unfold stack_finite. rewrite boundaries_finite by apply pv_down. rewrite andb_true_r. destruct t; auto.
  apply forallb_forall. intros l Hl'. apply Ceqb_neq. unfold ls, layers in Hl'.
  assert (P0 : forall n, passive n -> n <> 0%C) by (intros n [A _] ->; cbn in A; lra).
  destruct Hl' as [<-|H]; [cbn [mk_layer l_n]; apply P0, pv_x0|].
  apply in_app_or in H. destruct H as [H|[<-|[]]].
  - apply in_map_iff in H. destruct H as [p [<- Hp]]. cbn [mk_layer l_n]. apply P0. apply (Hf p Hp).
  - cbn [mk_layer l_n]. auto.
Qed.
Lemma ls_ne : ls <> []. Proof. unfold ls, layers. discriminate. Qed.
Lemma ls_last z : last ls z = mk final 0.
Proof. apply layers_last. Qed.
Lemma pv_final_re : fst (l_kzz (mk final 0)) <= 0.
Proof. destruct (medium_down x0 theta lam Hl t final 0 Hfin) as [[H|[H _]]|H]; fold mk in H; try lra. rewrite H. cbn. lra. Qed.
Lemma mod_pos (z : C) : z <> 0%C -> 0 < Cmod z ^ 2.
Proof. intros H. apply Cmod_gt_0 in H. nra. Qed.
(** c (|e0|^2 - |e1|^2) >= - Re kzz_final *)
Lemma pv_amp : exists c, 0 < c /\ l_kzz (mk (RtoC x0) 0) = RtoC (- c) /\
  - fst (l_kzz (mk final 0)) <= c * (Cmod (e0 ls) ^ 2 - Cmod (e1 ls) ^ 2) /\ e0 ls <> 0%C /\
  ((forall p, In p films -> transparent (fst p)) -> transparent final ->
   - fst (l_kzz (mk final 0)) = c * (Cmod (e0 ls) ^ 2 - Cmod (e1 ls) ^ 2)).
Proof.
  destruct (incident_kzz x0 theta lam Hx Ht0 Ht1 Hl t 0) as [c [Hc E]]. fold mk in E. exists c.
  assert (F := stack_flux ls (mk final 0) pv_down ls_ne pv_layers). rewrite ls_last in F.
  change (hd (mk final 0) ls) with (mk (RtoC x0) 0) in F. rewrite E, flux_real in F by reflexivity. cbn [fst RtoC] in F.
  repeat split; auto; try lra.
  - intros Z. assert (N := amp_neq0 ls pv_down). rewrite Z in N.
    assert (e1 ls <> 0%C) by (intros Z1; rewrite Z1 in N; destruct N as [N|N]; apply N; ring).
    apply mod_pos in H. rewrite Z, Cmod_0 in F. assert (P := pv_final_re). nra.
  - intros T1 T2.
    assert (F' := stack_flux_eq ls (mk final 0) pv_down ls_ne). rewrite ls_last in F'.
    change (hd (mk final 0) ls) with (mk (RtoC x0) 0) in F'. rewrite E, flux_real in F' by reflexivity. cbn [fst RtoC] in F'.
    rewrite <- F'; [lra|]. unfold ls, layers. intros l [<-|H].
    + apply medium_lossless; auto. split; cbn; lra.
    + apply in_app_or in H. destruct H as [H|[<-|[]]].
      * apply in_map_iff in H. destruct H as [p [<- Hp]]. apply medium_lossless; auto.
      * apply medium_lossless; auto.
Qed.
Lemma pv_solve : exists refl trans rr tc,
  solver (stack_n x0 films final) (stack_d films) theta lam t = Ok (Some (refl, trans, rr, Some tc)) /\
  refl = Cmod rr ^ 2 /\ trans = Cmod tc ^ 2 /\ refl + trans <= 1 /\
  ((forall p, In p films -> transparent (fst p)) -> transparent final -> refl + trans = 1) /\
  (fst (l_kzz (mk final 0)) = 0 -> trans = 0).
Proof.
  unfold stack_n, stack_d. rewrite solver_eq by auto. unfold solve_layers.
  fold mk. fold ls. rewrite pv_finite. destruct pv_amp as [c [Hc [E [A1 [N A2]]]]].
  change (m00 (stack_matrix ls)) with (e0 ls). change (m10 (stack_matrix ls)) with (e1 ls).
  rewrite Ceqb_neq by auto. cbn [andb].
  set (Pn := if t then _ else _).
  assert (HP : Pn = - fst (l_kzz (mk final 0)) / c).
  { assert (G : Pn = fst (l_kzz (mk final 0) / l_kzz (mk (RtoC x0) 0))%C).
    { unfold Pn, mk, mk_layer. cbn [l_kz l_n l_kzz]. destruct t; reflexivity. }
    rewrite G, E. unfold Cdiv. rewrite <- RtoC_inv by lra. unfold Cmult, RtoC. cbn [fst snd]. field. lra. }
  assert (P0 : 0 <= Pn).
  { rewrite HP. apply Rdiv_le_0_compat; auto. generalize pv_final_re. lra. }
  destruct (Rle_dec 0 Pn); [|contradiction].
  exists (Cmod (e1 ls / e0 ls)%C ^ 2), (Pn * Cmod (1 / e0 ls)%C ^ 2), (e1 ls / e0 ls)%C, (RtoC (sqrt Pn) * (1 / e0 ls))%C.
  assert (M := mod_pos _ N).
  assert (M1 : Cmod (1 / e0 ls)%C ^ 2 = 1 / Cmod (e0 ls) ^ 2).
  { rewrite Cmod_div by auto. rewrite Cmod_1. field. intros Z. rewrite Z in M. cbn in M. lra. }
  assert (M2 : Cmod (e1 ls / e0 ls)%C ^ 2 = Cmod (e1 ls) ^ 2 / Cmod (e0 ls) ^ 2).
  { rewrite Cmod_div by auto. field. intros Z. rewrite Z in M. cbn in M. lra. }
  assert (S : Cmod (e1 ls / e0 ls)%C ^ 2 + Pn * Cmod (1 / e0 ls)%C ^ 2 =
              1 - (Cmod (e0 ls) ^ 2 - Cmod (e1 ls) ^ 2 - Pn) / Cmod (e0 ls) ^ 2).
  { rewrite M1, M2. field. intros Z. rewrite Z in M. cbn in M. lra. }
  assert (HPc : Pn * c = - fst (l_kzz (mk final 0))) by (rewrite HP; field; lra).
  split; [reflexivity|]. split; [reflexivity|]. split; [|split; [|split]].
  - rewrite Cmod_mult, Rpow_mult_distr. f_equal. rewrite Cmod_R, Rabs_right, pow2_sqrt; auto. apply Rle_ge, sqrt_pos.
  - rewrite S. assert (Q : 0 <= (Cmod (e0 ls) ^ 2 - Cmod (e1 ls) ^ 2 - Pn) / Cmod (e0 ls) ^ 2); [|lra].
    apply Rdiv_le_0_compat; auto. apply Rmult_le_reg_l with c; auto. lra.
  - intros T1 T2. specialize (A2 T1 T2). rewrite S.
    replace (Cmod (e0 ls) ^ 2 - Cmod (e1 ls) ^ 2 - Pn) with 0; [unfold Rdiv; ring|].
    apply Rmult_eq_reg_l with c; lra.
  - intros Z. rewrite HP, Z. unfold Rdiv. ring.
Qed.
End Passive.
