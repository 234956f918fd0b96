(** Sums over lists, and the meaning of a least-squares solution. *)
From Coq Require Import ZArith Reals List Lra Lia Permutation.
From Verif.Base Require Import Sums.
Import ListNotations.
Open Scope R_scope.

Section LSum.
Context {P : Type}.
Fixpoint lsum (f : P -> R) (l : list P) : R :=
  match l with [] => 0 | p :: l' => f p + lsum f l' end.
Lemma lsum_ext f g l : (forall p, In p l -> f p = g p) -> lsum f l = lsum g l.
Proof. induction l as [|p l IH]; cbn; intros H; auto. rewrite H, IH by auto. auto. Qed.
Lemma lsum_add f g l : lsum (fun p => f p + g p) l = lsum f l + lsum g l.
Proof. induction l as [|p l IH]; cbn; [ring|]. rewrite IH; ring. Qed.
Lemma lsum_scal c f l : lsum (fun p => c * f p) l = c * lsum f l.
Proof. induction l as [|p l IH]; cbn; [ring|]. rewrite IH; ring. Qed.
Lemma lsum_sub f g l : lsum (fun p => f p - g p) l = lsum f l - lsum g l.
Proof. induction l as [|p l IH]; cbn; [ring|]. rewrite IH; ring. Qed.
Lemma lsum_nonneg f l : (forall p, In p l -> 0 <= f p) -> 0 <= lsum f l.
Proof.
  induction l as [|p l IH]; cbn; intros H; [lra|].
  pose proof (H p (or_introl eq_refl)). pose proof (IH (fun q Hq => H q (or_intror Hq))). lra.
Qed.
Lemma lsum_le f g l : (forall p, In p l -> f p <= g p) -> lsum f l <= lsum g l.
Proof.
  induction l as [|p l IH]; cbn; intros H; [lra|].
  pose proof (H p (or_introl eq_refl)). pose proof (IH (fun q Hq => H q (or_intror Hq))). lra.
Qed.
Lemma lsum_nonneg_zero f l : (forall p, In p l -> 0 <= f p) -> lsum f l = 0 ->
  forall p, In p l -> f p = 0.
Proof.
  induction l as [|p l IH]; cbn; intros H E; [tauto|].
  pose proof (H p (or_introl eq_refl)).
  pose proof (lsum_nonneg f l (fun q Hq => H q (or_intror Hq))).
  intros q [<-|Hq]; [lra|]. apply IH; auto; lra.
Qed.
Lemma lsum_zero l : lsum (fun _ => 0) l = 0.
Proof. induction l as [|p l IH]; cbn; [ring|]. rewrite IH; ring. Qed.
Lemma lsum_all_zero f l : (forall p, In p l -> f p = 0) -> lsum f l = 0.
Proof. intros H. rewrite (lsum_ext f (fun _ => 0)) by auto. apply lsum_zero. Qed.
Lemma lsum_app f l l' : lsum f (l ++ l') = lsum f l + lsum f l'.
Proof. induction l as [|p l IH]; cbn; [ring|]. rewrite IH; ring. Qed.
Lemma lsum_perm f l l' : Permutation l l' -> lsum f l = lsum f l'.
Proof. induction 1; cbn; lra. Qed.
Lemma lsum_rsum (f : P -> Z -> R) l n :
  lsum (fun p => rsum (fun k => f p k) n) l = rsum (fun k => lsum (fun p => f p k) l) n.
Proof.
  induction l as [|p l IH]; cbn; [rewrite rsum_zero; auto|]. rewrite IH, <- rsum_add. auto.
Qed.
Lemma lsum_term_le f l p : (forall q, In q l -> 0 <= f q) -> In p l -> f p <= lsum f l.
Proof.
  induction l as [|q l IH]; cbn; [tauto|]. intros H Hp.
  pose proof (H q (or_introl eq_refl)).
  pose proof (lsum_nonneg f l (fun q Hq => H q (or_intror Hq))).
  destruct Hp as [<-|Hp]; [lra|]. pose proof (IH (fun q Hq => H q (or_intror Hq)) Hp). lra.
Qed.
Lemma lsum_const c l : lsum (fun _ => c) l = INR (length l) * c.
Proof. induction l as [|p l IH]; [cbn; ring|]. cbn [lsum length]. rewrite IH, S_INR; ring. Qed.
End LSum.
Lemma lsum_map {P Q} (f : Q -> R) (g : P -> Q) l : lsum f (map g l) = lsum (fun p => f (g p)) l.
Proof. induction l as [|p l IH]; cbn; auto. rewrite IH; auto. Qed.

(** Rows are the elements of a list of points, columns 0..n-1; [fitted] is the matrix product. *)
Section Lstsq.
Context {P : Type}.
Variable pts : list P.
Variable n : Z.
Variable A : P -> Z -> R.
Variable b : P -> R.

Definition fitted (c : Z -> R) (p : P) : R := rsum (fun k => c k * A p k) n.
Definition sse (c : Z -> R) : R := lsum (fun p => (fitted c p - b p) ^ 2) pts.
(** [c] is a least-squares solution: what numpy.linalg.lstsq returns in exact arithmetic (for
    rank-deficient systems it returns one of several such vectors). *)
Definition is_lstsq (c : Z -> R) : Prop := forall c', sse c <= sse c'.
Definition normal_eqs (c : Z -> R) : Prop :=
  forall k, (0 <= k < n)%Z -> lsum (fun p => A p k * (fitted c p - b p)) pts = 0.

Lemma fitted_add c d p : fitted (fun k => c k + d k) p = fitted c p + fitted d p.
Proof. unfold fitted. rewrite <- rsum_add. apply rsum_ext. intros; ring. Qed.
Lemma fitted_scal t c p : fitted (fun k => t * c k) p = t * fitted c p.
Proof. unfold fitted. rewrite <- rsum_scal. apply rsum_ext. intros; ring. Qed.
Lemma fitted_sub c d p : fitted (fun k => c k - d k) p = fitted c p - fitted d p.
Proof. unfold fitted. rewrite <- rsum_sub. apply rsum_ext. intros; ring. Qed.
Lemma fitted_ext c d p : (forall k, (0 <= k < n)%Z -> c k = d k) -> fitted c p = fitted d p.
Proof. intros H. apply rsum_ext. intros; rewrite H; auto. Qed.

Lemma quad_min G H : (forall t, 0 <= 2 * t * G + t ^ 2 * H) -> G = 0.
Proof.
  intros Q. destruct (Req_dec G 0) as [|N]; auto. exfalso.
  destruct (Rle_or_lt H 0) as [L|L].
  - pose proof (Q (- G)). assert (0 < G * G) by (pose proof (Rsqr_pos_lt _ N) as K; exact K).
    assert (0 <= G * G * - H) by (apply Rmult_le_pos; lra). nra.
  - pose proof (Q (- G / H)) as K.
    assert (0 < G * G) by (pose proof (Rsqr_pos_lt _ N) as K'; exact K').
    replace (2 * (- G / H) * G + (- G / H) ^ 2 * H) with (- (G * G / H)) in K by (field; lra).
    assert (0 < G * G / H) by (apply Rmult_lt_0_compat; [auto|apply Rinv_0_lt_compat; auto]). lra.
Qed.

Lemma sse_shift c d t :
  sse (fun k => c k + t * d k) =
  sse c + 2 * t * lsum (fun p => fitted d p * (fitted c p - b p)) pts
  + t ^ 2 * lsum (fun p => fitted d p ^ 2) pts.
Proof.
  unfold sse. rewrite <- !lsum_scal, <- !lsum_add. apply lsum_ext. intros p _.
  rewrite (fitted_add c (fun k => t * d k)), fitted_scal. ring.
Qed.

Lemma fitted_delta k p : (0 <= k < n)%Z -> fitted (fun k' => if (k' =? k)%Z then 1 else 0) p = A p k.
Proof.
  intros H. unfold fitted. rewrite <- (rsum_delta (fun k => A p k) n k H). apply rsum_ext.
  intros j _. destruct (j =? k)%Z; ring.
Qed.

Lemma lstsq_normal c : is_lstsq c -> normal_eqs c.
Proof.
  intros H k Hk. set (d := fun k' => if (k' =? k)%Z then 1 else 0).
  apply quad_min with (H := lsum (fun p => fitted d p ^ 2) pts). intros t.
  pose proof (H (fun k => c k + t * d k)) as K. rewrite sse_shift in K.
  rewrite (lsum_ext (fun p => A p k * (fitted c p - b p)) (fun p => fitted d p * (fitted c p - b p))).
  - lra.
  - intros p _. unfold d. rewrite fitted_delta; auto.
Qed.
Lemma normal_dir c d : normal_eqs c -> lsum (fun p => fitted d p * (fitted c p - b p)) pts = 0.
Proof.
  intros H. rewrite (lsum_ext _ (fun p => rsum (fun k => d k * (A p k * (fitted c p - b p))) n)).
  - rewrite lsum_rsum. apply rsum_all_zero. intros k Hk. rewrite lsum_scal, H by auto. ring.
  - intros p _. unfold fitted at 1. rewrite <- rsum_scal_r. apply rsum_ext. intros; ring.
Qed.
Lemma normal_lstsq c : normal_eqs c -> is_lstsq c.
Proof.
  intros H c'. replace (sse c') with (sse (fun k => c k + 1 * (c' k - c k))).
  - rewrite sse_shift, normal_dir by auto.
    pose proof (lsum_nonneg (fun p => fitted (fun k => c' k - c k) p ^ 2) pts
      (fun p _ => pow2_ge_0 _)). lra.
  - unfold sse. apply lsum_ext. intros p _. do 2 f_equal. apply fitted_ext. intros; ring.
Qed.
(** Two solutions have the same fitted values. *)
Lemma lstsq_fitted_unique c c' : is_lstsq c -> is_lstsq c' ->
  forall p, In p pts -> fitted c p = fitted c' p.
Proof.
  intros H H' p Hp. pose proof (lstsq_normal c H) as N. pose proof (H' c) as L.
  assert (E : sse c' = sse (fun k => c k + 1 * (c' k - c k))).
  { unfold sse. apply lsum_ext. intros q _. do 2 f_equal. apply fitted_ext. intros; ring. }
  rewrite E, sse_shift, normal_dir in L by auto.
  assert (Z : lsum (fun p => fitted (fun k => c' k - c k) p ^ 2) pts = 0).
  { pose proof (lsum_nonneg (fun p => fitted (fun k => c' k - c k) p ^ 2) pts
      (fun p _ => pow2_ge_0 _)). lra. }
  pose proof (lsum_nonneg_zero _ _ (fun p _ => pow2_ge_0 _) Z p Hp) as K. cbv beta in K.
  rewrite fitted_sub in K. nra.
Qed.
(** Data in the column space is fitted exactly. *)
Lemma lstsq_exact c a : is_lstsq c -> (forall p, In p pts -> b p = fitted a p) ->
  forall p, In p pts -> fitted c p = b p.
Proof.
  intros H E p Hp. rewrite E by auto. apply lstsq_fitted_unique; auto.
  intros c'. replace (sse a) with 0.
  - apply lsum_nonneg. intros; apply pow2_ge_0.
  - symmetry. apply lsum_all_zero. intros q Hq. rewrite E by auto. ring.
Qed.
(** Columns linearly independent on the points. *)
Definition independent : Prop :=
  forall c, (forall p, In p pts -> fitted c p = 0) -> forall k, (0 <= k < n)%Z -> c k = 0.
Lemma lstsq_recover c a : independent -> is_lstsq c -> (forall p, In p pts -> b p = fitted a p) ->
  forall k, (0 <= k < n)%Z -> c k = a k.
Proof.
  intros I H E k Hk.
  assert (Z : c k - a k = 0); [|lra].
  apply (I (fun k => c k - a k)); auto. intros p Hp. rewrite fitted_sub. rewrite (lstsq_exact c a) by auto.
  rewrite E by auto. ring.
Qed.
End Lstsq.

(** ** A least-squares solution always exists (so the hypotheses about lstsq are satisfiable). *)
Section Exists.
Context {P : Type}.
Variable pts : list P.
Lemma fitted_succ n (A : P -> Z -> R) c p : (0 <= n)%Z ->
  fitted (n + 1) A c p = fitted n A c p + c n * A p n.
Proof. intros H. unfold fitted. rewrite rsum_succ by auto. reflexivity. Qed.
Lemma normal_ortho n A b c d : normal_eqs pts n A b c ->
  lsum (fun p => fitted n A d p * (fitted n A c p - b p)) pts = 0.
Proof. apply normal_dir. Qed.
Lemma normal_exists_nat (A : P -> Z -> R) (n : nat) :
  forall b, {c | normal_eqs pts (Z.of_nat n) A b c}.
Proof.
  induction n as [|n IH]; intros b.
  - exists (fun _ => 0). intros k Hk. cbn in Hk. lia.
  - destruct (IH b) as [cb Hb]. destruct (IH (fun p => A p (Z.of_nat n))) as [ca Ha].
    set (N := Z.of_nat n) in *. assert (HN : (0 <= N)%Z) by (unfold N; lia).
    set (r := fun p => fitted N A ca p - A p N).
    set (rr := lsum (fun p => r p ^ 2) pts).
    set (t := if Req_EM_T rr 0 then 0 else lsum (fun p => r p * b p) pts / rr).
    exists (fun k => if (k =? N)%Z then - t else cb k + t * ca k).
    replace (Z.of_nat (S n)) with (N + 1)%Z by (unfold N; lia).
    assert (F : forall p, fitted (N + 1) A (fun k => if (k =? N)%Z then - t else cb k + t * ca k) p
                = fitted N A cb p + t * r p).
    { intros p. rewrite fitted_succ by auto. rewrite Z.eqb_refl.
      rewrite (fitted_ext N A _ (fun k => cb k + t * ca k)).
      - rewrite (fitted_add N A cb (fun k => t * ca k)), fitted_scal. unfold r. ring.
      - intros k Hk. destruct (Z.eqb_spec k N); [lia|reflexivity]. }
    assert (G1 : forall k, (0 <= k < N)%Z ->
      lsum (fun p => A p k * (fitted N A cb p + t * r p - b p)) pts = 0).
    { intros k Hk. rewrite (lsum_ext _ (fun p => A p k * (fitted N A cb p - b p) + t * (A p k * (fitted N A ca p - A p N)))).
      - rewrite lsum_add, lsum_scal, (Hb k Hk), (Ha k Hk). ring.
      - intros; unfold r; ring. }
    assert (G2 : forall d, lsum (fun p => fitted N A d p * (fitted N A cb p + t * r p - b p)) pts = 0).
    { intros d. rewrite (lsum_ext _ (fun p => fitted N A d p * (fitted N A cb p - b p)
         + t * (fitted N A d p * (fitted N A ca p - A p N)))).
      - rewrite lsum_add, lsum_scal, (normal_dir _ _ _ _ _ d Hb), (normal_dir _ _ _ _ _ d Ha). ring.
      - intros p _. unfold r. ring. }
    intros k Hk. rewrite (lsum_ext _ (fun p => A p k * (fitted N A cb p + t * r p - b p)))
      by (intros p _; rewrite F; ring).
    destruct (Z.eq_dec k N) as [->|]; [|apply G1; lia].
    rewrite (lsum_ext _ (fun p => fitted N A ca p * (fitted N A cb p + t * r p - b p)
      - (r p * fitted N A cb p + t * r p ^ 2 - r p * b p))).
    2:{ intros p _. unfold r. ring. }
    rewrite lsum_sub, G2, lsum_sub, lsum_add, lsum_scal. fold rr.
    assert (O : lsum (fun p => r p * fitted N A cb p) pts = 0).
    { rewrite <- (normal_dir pts N A _ ca cb Ha). apply lsum_ext. intros p _. unfold r. ring. }
    rewrite O. unfold t. destruct (Req_EM_T rr 0) as [E|E].
    + assert (lsum (fun p => r p * b p) pts = 0); [|lra].
      apply lsum_all_zero. intros p Hp.
      pose proof (lsum_nonneg_zero (fun p => r p ^ 2) pts (fun q _ => pow2_ge_0 _) E p Hp) as K.
      cbv beta in K. assert (r p = 0) by nra. rewrite H. ring.
    + field. auto.
Qed.
Lemma lstsq_exists n (A : P -> Z -> R) b : {c | is_lstsq pts n A b c}.
Proof.
  destruct (Z_le_gt_dec n 0) as [H|H].
  - exists (fun _ => 0). intros c'. unfold sse, fitted.
    apply Req_le, lsum_ext. intros p _. rewrite !rsum_0 by auto. reflexivity.
  - destruct (normal_exists_nat A (Z.to_nat n) b) as [c Hc]. rewrite Z2Nat.id in Hc by lia.
    exists c. apply normal_lstsq; auto.
Qed.
(** The oracle: a function returning least-squares solutions. *)
Definition is_lstsq_oracle (f : list P -> Z -> (P -> Z -> R) -> (P -> R) -> Z -> R) : Prop :=
  forall pts n A b, is_lstsq pts n A b (f pts n A b).
End Exists.
Definition lstsq_ref {P} (pts : list P) n A b : Z -> R := proj1_sig (lstsq_exists pts n A b).
Lemma lstsq_ref_ok {P} : is_lstsq_oracle (@lstsq_ref P).
Proof. intros pts n A b. unfold lstsq_ref. destruct (lstsq_exists pts n A b); auto. Qed.
