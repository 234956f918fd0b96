(** Python [for k in range(lo, hi)] loops over an explicit state, and table updates. *)
From Coq Require Import ZArith Lia List.
Open Scope Z_scope.

Section Loop.
Context {S : Type}.
Fixpoint iter_from (k : Z) (n : nat) (body : Z -> S -> S) (s : S) : S :=
  match n with O => s | Datatypes.S n' => iter_from (k + 1) n' body (body k s) end.
Definition for_range (lo hi : Z) (body : Z -> S -> S) (s : S) : S :=
  iter_from lo (Z.to_nat (hi - lo)) body s.
Lemma iter_from_inv (I : Z -> S -> Prop) body n : forall k s, I k s ->
  (forall k' s', k <= k' < k + Z.of_nat n -> I k' s' -> I (k' + 1) (body k' s')) ->
  I (k + Z.of_nat n) (iter_from k n body s).
Proof.
  induction n as [|n IH]; intros k s H0 Hs.
  - rewrite Z.add_0_r. exact H0.
  - cbn [iter_from]. replace (k + Z.of_nat (Datatypes.S n)) with (k + 1 + Z.of_nat n) by lia.
    apply IH.
    + apply Hs; [lia|auto].
    + intros k' s' Hk. apply Hs. lia.
Qed.
Lemma for_range_inv (I : Z -> S -> Prop) lo hi body s : lo <= hi -> I lo s ->
  (forall k s', lo <= k < hi -> I k s' -> I (k + 1) (body k s')) -> I hi (for_range lo hi body s).
Proof.
  intros H H0 Hs. unfold for_range.
  replace hi with (lo + Z.of_nat (Z.to_nat (hi - lo))) at 1 by lia.
  apply iter_from_inv; auto. intros k s' Hk. apply Hs. lia.
Qed.
Lemma for_range_empty lo hi body (s : S) : hi <= lo -> for_range lo hi body s = s.
Proof. intros H. unfold for_range. replace (Z.to_nat (hi - lo)) with O by lia. reflexivity. Qed.
Lemma iter_from_last k n body (s : S) :
  iter_from k (Datatypes.S n) body s = body (k + Z.of_nat n) (iter_from k n body s).
Proof.
  revert k s; induction n as [|n IH]; intros k s.
  - cbn. rewrite Z.add_0_r. reflexivity.
  - cbn [iter_from] in *. rewrite IH. f_equal. lia.
Qed.
Lemma for_range_last lo hi body (s : S) : lo <= hi ->
  for_range lo (hi + 1) body s = body hi (for_range lo hi body s).
Proof.
  intros H. unfold for_range. replace (Z.to_nat (hi + 1 - lo)) with (Datatypes.S (Z.to_nat (hi - lo))) by lia.
  rewrite iter_from_last. f_equal. lia.
Qed.
End Loop.

(** One-dimensional table update [t[i] = v]. *)
Definition upd {A} (t : Z -> A) (i : Z) (v : A) : Z -> A := fun k => if k =? i then v else t k.
Lemma upd_same {A} (t : Z -> A) i v : upd t i v i = v.
Proof. unfold upd. rewrite Z.eqb_refl. reflexivity. Qed.
Lemma upd_other {A} (t : Z -> A) i v k : k <> i -> upd t i v k = t k.
Proof. intros H. unfold upd. destruct (Z.eqb_spec k i); [contradiction|reflexivity]. Qed.
