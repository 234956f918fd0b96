From Coq Require Import ZArith Bool List String Reals Lra Lia Psatz.
From Coquelicot Require Import Complex.
From Verif.Base Require Import Py CSum.
From Verif.Model Require Import ThinFilm.
From Verif.Spec Require Import ThinFilmSpec.
From Verif.Proofs Require Import ThinFilmP.
Import ListNotations.
Open Scope list_scope.
Open Scope R_scope.

(** * Artificial boundaries *)
Lemma ne2 : RtoC 2 <> 0%C. Proof. intros X; apply RtoC_inj in X; lra. Qed.
Lemma half2 : RtoC (/ 2) = (/ RtoC 2)%C. Proof. apply RtoC_inv. lra. Qed.
Lemma two_C : RtoC 2 = (1 + 1)%C. Proof. rewrite <- RtoC_plus. reflexivity. Qed.
Lemma one_C : (1 + 1 <> 0)%C. Proof. rewrite <- two_C. apply ne2. Qed.

Definition same_wave (a b : layer) : Prop := l_kz a = l_kz b /\ l_kzz a = l_kzz b.
Lemma film_matrix_wave a a' b b' : same_wave a a' -> l_d a = l_d a' -> same_wave b b' -> film_matrix a b = film_matrix a' b'.
Proof. intros [A1 A2] D [B1 B2]. unfold film_matrix. rewrite A1, A2, D, B2. reflexivity. Qed.

Lemma film_zero a m b : l_d m = 0 -> l_kzz a <> 0%C -> l_kzz m <> 0%C -> (l_kzz a + l_kzz m)%C <> 0%C ->
  (l_kzz m + l_kzz b)%C <> 0%C -> (l_kzz a + l_kzz b)%C <> 0%C ->
  mmul (film_matrix a m) (film_matrix m b) = film_matrix a b.
Proof.
  intros D A M AM MB AB. unfold film_matrix. rewrite D.
  replace (- Ci * l_kz m * 0)%C with (RtoC 0) by ring. replace (Ci * l_kz m * 0)%C with (RtoC 0) by ring. rewrite cexp_0.
  unfold mmul. cbn [m00 m01 m10 m11]. rewrite half2, two_C.
  assert (T := one_C).
  f_equal; field; repeat split; auto.
Qed.
Lemma film_split a1 a2 b : same_wave a1 a2 -> l_kzz a1 <> 0%C ->
  forall a, same_wave a a1 -> l_d a = l_d a1 + l_d a2 -> mmul (film_matrix a1 a2) (film_matrix a2 b) = film_matrix a b.
Proof.
  intros [W1 W2] A a [V1 V2] D. unfold film_matrix. rewrite D, <- W1, <- W2, V1, V2, !RtoC_plus.
  assert (T := one_C).
  replace (- Ci * l_kz a1 * (RtoC (l_d a1) + RtoC (l_d a2)))%C with (- Ci * l_kz a1 * RtoC (l_d a1) + - Ci * l_kz a1 * RtoC (l_d a2))%C by ring.
  replace (Ci * l_kz a1 * (RtoC (l_d a1) + RtoC (l_d a2)))%C with (Ci * l_kz a1 * RtoC (l_d a1) + Ci * l_kz a1 * RtoC (l_d a2))%C by ring.
  rewrite !cexp_add.
  replace ((l_kzz a1 - l_kzz a1) / (l_kzz a1 + l_kzz a1))%C with (RtoC 0) by (unfold Cdiv; ring).
  replace (RtoC (/ 2) * (l_kzz a1 + l_kzz a1) / l_kzz a1)%C with (RtoC 1).
  2:{ rewrite half2, two_C. field. auto. }
  unfold mmul. cbn [m00 m01 m10 m11]. f_equal; ring.
Qed.
Lemma stack_app pre x y l l' : stack_matrix (x :: l) = stack_matrix (y :: l') ->
  same_wave x y -> l_d x = l_d y ->
  stack_matrix (pre ++ x :: l) = stack_matrix (pre ++ y :: l').
Proof.
  intros E W D. induction pre as [|a [|b pre] IH]; auto.
  - cbn [app]. rewrite !stack_cons, E. f_equal. apply film_matrix_wave; auto. split; auto.
  - cbn [app] in *. rewrite !(stack_cons a b). now rewrite IH.
Qed.
Lemma stack_app_wave pre x y l l' : stack_matrix (x :: l) = stack_matrix (y :: l') ->
  same_wave x y -> stack_matrix (pre ++ x :: l) = stack_matrix (pre ++ y :: l').
Proof.
  intros E W. induction pre as [|a [|b pre] IH]; auto.
  - cbn [app]. rewrite !stack_cons, E. f_equal. apply film_matrix_wave; auto. split; auto.
  - cbn [app] in *. rewrite !(stack_cons a b). now rewrite IH.
Qed.

Lemma forallb_app_r {A} (f : A -> bool) l1 l2 : forallb f (l1 ++ l2) = forallb f l1 && forallb f l2.
Proof. apply forallb_app. Qed.
Lemma pairs_app pre a l : pairs (pre ++ a :: l) = pairs (pre ++ [a]) ++ pairs (a :: l).
Proof.
  induction pre as [|x [|y pre] IH]; auto. cbn [app] in *.
  change (pairs (x :: y :: pre ++ a :: l)) with ((x, y) :: pairs (y :: pre ++ a :: l)). rewrite IH. reflexivity.
Qed.
Lemma boundary_wave a a' b b' : same_wave a a' -> same_wave b b' -> boundary_finite (a, b) = boundary_finite (a', b').
Proof. intros [_ A] [_ B]. unfold boundary_finite. cbn [fst snd]. now rewrite A, B. Qed.

Lemma zero_stack t pre a m b post : l_d m = 0 ->
  stack_finite t (pre ++ a :: m :: b :: post) = true -> stack_finite t (pre ++ a :: b :: post) = true ->
  stack_matrix (pre ++ a :: m :: b :: post) = stack_matrix (pre ++ a :: b :: post).
Proof.
  intros D H1 H2. apply stack_app; [|split; auto|auto].
  unfold stack_finite in H1, H2. apply andb_prop in H1. apply andb_prop in H2. destruct H1 as [_ H1], H2 as [_ H2].
  rewrite pairs_app, forallb_app in H1, H2. apply andb_prop in H1. apply andb_prop in H2. destruct H1 as [_ H1], H2 as [_ H2].
  change (pairs (a :: m :: b :: post)) with ((a, m) :: (m, b) :: pairs (b :: post)) in H1.
  change (pairs (a :: b :: post)) with ((a, b) :: pairs (b :: post)) in H2.
  cbn [forallb] in H1, H2. unfold boundary_finite in H1, H2. cbn [fst snd] in H1, H2.
  repeat (apply andb_prop in H1; destruct H1 as [? H1]). repeat (apply andb_prop in H2; destruct H2 as [? H2]).
  apply andb_prop in H. apply andb_prop in H0. apply andb_prop in H3. destruct H, H0, H3.
  assert (X : forall z w : C, negb (Ceqb z w) = true -> z <> w).
  { intros z w Q E. rewrite (proj2 (Ceqb_true z w) E) in Q. discriminate. }
  rewrite !stack_cons, <- mmul_assoc. f_equal. apply film_zero; auto.
Qed.
Lemma split_stack t pre a1 a2 a b post : same_wave a a1 -> same_wave a a2 -> l_d a = l_d a1 + l_d a2 -> l_n a = l_n a1 -> l_n a = l_n a2 ->
  stack_finite t (pre ++ a1 :: a2 :: b :: post) = stack_finite t (pre ++ a :: b :: post) /\
  (stack_finite t (pre ++ a :: b :: post) = true ->
   stack_matrix (pre ++ a1 :: a2 :: b :: post) = stack_matrix (pre ++ a :: b :: post)).
Proof.
  intros W1 W2 D N1 N2.
  assert (K : boundary_finite (a1, a2) = negb (Ceqb (l_kzz a) 0)).
  { unfold boundary_finite. cbn [fst snd]. destruct W1 as [_ <-], W2 as [_ <-].
    destruct (Ceq_dec (l_kzz a) 0) as [E|E].
    - rewrite (proj2 (Ceqb_true _ _) E). reflexivity.
    - rewrite !Ceqb_neq; auto. intros Q. apply (Cmult_neq_0 (RtoC 2) _ ne2 E). rewrite <- Q, two_C. ring. }
  split.
  - unfold stack_finite. f_equal.
    + destruct t; auto. rewrite !forallb_app. cbn [forallb]. rewrite <- N1, <- N2.
      destruct (negb (Ceqb (l_n a) 0)); reflexivity.
    + rewrite (pairs_app pre a1), (pairs_app pre a), !forallb_app. f_equal.
      * assert (G : forall p, forallb boundary_finite (pairs (p ++ [a1])) = forallb boundary_finite (pairs (p ++ [a]))).
        { induction p as [|x [|y p] IH]; auto.
          - cbn [app pairs tl List.combine forallb]. rewrite (boundary_wave x x a1 a); auto; [split; auto|destruct W1; split; auto].
          - cbn [app] in *. change (pairs (x :: y :: p ++ [a1])) with ((x, y) :: pairs (y :: p ++ [a1])).
            change (pairs (x :: y :: p ++ [a])) with ((x, y) :: pairs (y :: p ++ [a])). cbn [forallb]. now rewrite IH. }
        apply G.
      * change (pairs (a1 :: a2 :: b :: post)) with ((a1, a2) :: (a2, b) :: pairs (b :: post)).
        change (pairs (a :: b :: post)) with ((a, b) :: pairs (b :: post)). cbn [forallb].
        rewrite K, (boundary_wave a2 a b b); [|destruct W2; split; auto|split; auto].
        unfold boundary_finite at 1 3. cbn [fst snd]. destruct (negb (Ceqb (l_kzz a) 0)); reflexivity.
  - intros F. apply stack_app_wave; [|destruct W1; split; auto].
    rewrite !stack_cons, <- mmul_assoc. f_equal.
    apply film_split; auto.
    + destruct W1, W2; split; congruence.
    + unfold stack_finite in F. apply andb_prop in F. destruct F as [_ F]. rewrite pairs_app, forallb_app in F.
      apply andb_prop in F. destruct F as [_ F]. change (pairs (a :: b :: post)) with ((a, b) :: pairs (b :: post)) in F.
      cbn [forallb] in F. unfold boundary_finite in F. cbn [fst snd] in F. apply andb_prop in F. destruct F as [F _].
      apply andb_prop in F. destruct F as [F _]. destruct W1 as [_ <-]. intros E. rewrite (proj2 (Ceqb_true _ _) E) in F. discriminate.
Qed.

Section Outer.
Variables (n0 final : C) (theta lam : R) (t : bool) (f1 f2 : list (C * R)).
Let mk := mk_layer n0 theta lam t.
Let mkp := fun p : C * R => mk (fst p) (snd p).
(** [layers] with the films split around a position, as prefix ending in a medium and a non-empty suffix. *)
Lemma layers_mid mid : exists pre a b post,
  layers n0 theta lam t (f1 ++ mid ++ f2) final = pre ++ a :: map mkp mid ++ b :: post /\
  forall mid', layers n0 theta lam t (f1 ++ mid' ++ f2) final = pre ++ a :: map mkp mid' ++ b :: post.
Proof.
  destruct (exists_last (l := mk n0 0 :: map mkp f1)) as [pre [a E]]; [discriminate|].
  destruct (map mkp f2 ++ [mk final 0]) as [|b post] eqn:E2; [destruct f2; discriminate|].
  exists pre, a, b, post.
  assert (G : forall mid', layers n0 theta lam t (f1 ++ mid' ++ f2) final = pre ++ a :: map mkp mid' ++ b :: post).
  { intros mid'. unfold layers. fold mk. change (fun p : C * R => mk (fst p) (snd p)) with mkp.
    rewrite !map_app. rewrite <- !app_assoc. rewrite app_comm_cons, E, E2, <- app_assoc. reflexivity. }
  split; auto.
Qed.
Hypothesis (Ht0 : 0 <= theta) (Ht1 : theta < PI / 2) (Hl : 0 < lam).
Definition run (films : list (C * R)) := solver (n0 :: map fst films ++ [final]) (map snd films) theta lam t.
Lemma zero_film_lem m o o' : run (f1 ++ (m, 0) :: f2) = Ok (Some o) -> run (f1 ++ f2) = Ok (Some o') -> o = o'.
Proof.
  unfold run. rewrite !solver_eq by auto. intros H H'. injection H as H. injection H' as H'.
  destruct (layers_mid []) as [pre [a [b [post [_ G]]]]].
  change (f1 ++ (m, 0) :: f2) with (f1 ++ [(m, 0)] ++ f2) in H. change (f1 ++ f2) with (f1 ++ [] ++ f2) in H'.
  rewrite G in H, H'. cbn [map app] in H, H'.
  unfold solve_layers in H, H'.
  destruct (stack_finite t (pre ++ a :: mkp (m, 0) :: b :: post)) eqn:S1; [|discriminate].
  destruct (stack_finite t (pre ++ a :: b :: post)) eqn:S2; [|discriminate].
  rewrite (zero_stack t pre a (mkp (m, 0)) b post eq_refl S1 S2) in H. rewrite H in H'. now injection H'.
Qed.
Lemma split_film_lem m d1 d2 : run (f1 ++ (m, d1) :: (m, d2) :: f2) = run (f1 ++ (m, d1 + d2) :: f2).
Proof.
  unfold run. rewrite !solver_eq by auto. f_equal.
  destruct (layers_mid []) as [pre [a [b [post [_ G]]]]].
  change (f1 ++ (m, d1) :: (m, d2) :: f2) with (f1 ++ [(m, d1); (m, d2)] ++ f2).
  change (f1 ++ (m, d1 + d2) :: f2) with (f1 ++ [(m, d1 + d2)] ++ f2).
  rewrite !G. cbn [map app].
  destruct (split_stack t (pre ++ [a]) (mkp (m, d1)) (mkp (m, d2)) (mkp (m, d1 + d2)) b post) as [A B]; try reflexivity; try (split; reflexivity).
  rewrite <- !app_assoc in A, B. cbn [app] in A, B. unfold solve_layers. rewrite A.
  destruct (stack_finite t (pre ++ a :: mkp (m, d1 + d2) :: b :: post)) eqn:S; auto. rewrite B; auto.
Qed.
End Outer.
