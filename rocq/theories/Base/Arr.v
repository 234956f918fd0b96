(** Two-dimensional arrays with numpy slice semantics. *)
From Coq Require Import ZArith Bool Lia List.
From Verif.Base Require Import Py.
Import ListNotations.
Open Scope Z_scope.

(** A 2-D array: number of rows, number of columns, element at (row, column).
    Only elements with 0 <= row < nr and 0 <= column < nc are meaningful. *)
Record arr (A : Type) := Arr { nr : Z; nc : Z; at2 : Z -> Z -> A }.
Arguments Arr {A} nr nc at2.
Arguments nr {A} a.
Arguments nc {A} a.
Arguments at2 {A} a _ _.

(** A numpy array has non-negative sizes. *)
Definition wf {A} (a : arr A) : Prop := 0 <= nr a /\ 0 <= nc a.

Definition in_arr {A} (a : arr A) (i j : Z) : Prop := 0 <= i < nr a /\ 0 <= j < nc a.
Definition in_arrb {A} (a : arr A) (i j : Z) : bool :=
  (0 <=? i) && (i <? nr a) && (0 <=? j) && (j <? nc a).

(** Equality of arrays: same shape, same elements. *)
Definition aeq {A} (a b : arr A) : Prop :=
  nr a = nr b /\ nc a = nc b /\ forall i j, in_arr a i j -> at2 a i j = at2 b i j.

Definition amap {A B} (f : A -> B) (a : arr A) : arr B :=
  Arr (nr a) (nc a) (fun i j => f (at2 a i j)).
Definition afull {A} (r c : Z) (v : A) : arr A := Arr r c (fun _ _ => v).
Definition amap2 {A B D} (f : A -> B -> D) (a : arr A) (b : arr B) : arr D :=
  Arr (nr a) (nc a) (fun i j => f (at2 a i j) (at2 b i j)).
Definition transpose {A} (a : arr A) : arr A := Arr (nc a) (nr a) (fun i j => at2 a j i).

(** Build an array from a list of rows (used in examples). *)
Definition of_rows {A} (d : A) (l : list (list A)) : arr A :=
  Arr (Z.of_nat (length l)) (Z.of_nat (length (hd [] l)))
      (fun i j => nth (Z.to_nat j) (nth (Z.to_nat i) l []) d).

(** *** numpy basic slicing, step 1: [a[start:stop]] along an axis of length [n]. *)
Definition slice_bound (n s : Z) : Z := if s <? 0 then Z.max 0 (s + n) else Z.min s n.
Record slice := Slice { s_start : Z; s_stop : Z }.
Definition slice_lo (n : Z) (s : slice) : Z := slice_bound n (s_start s).
Definition slice_len (n : Z) (s : slice) : Z :=
  Z.max 0 (slice_bound n (s_stop s) - slice_bound n (s_start s)).

Definition get_slice {A} (a : arr A) (sr sc : slice) : arr A :=
  Arr (slice_len (nr a) sr) (slice_len (nc a) sc)
      (fun i j => at2 a (slice_lo (nr a) sr + i) (slice_lo (nc a) sc + j)).

(** numpy broadcasting of one axis of the right-hand side of a slice assignment. *)
Definition bc_ok (target src : Z) : bool := (src =? target) || (src =? 1).
Definition bc_idx (src i : Z) : Z := if src =? 1 then 0 else i.

(** [out[sr, sc] = src]: raises ValueError when [src] cannot be broadcast to the target shape. *)
Definition set_slice {A} (out : arr A) (sr sc : slice) (src : arr A) : res (arr A) :=
  let rl := slice_len (nr out) sr in
  let cl := slice_len (nc out) sc in
  let r0 := slice_lo (nr out) sr in
  let c0 := slice_lo (nc out) sc in
  if bc_ok rl (nr src) && bc_ok cl (nc src) then
    Ok (Arr (nr out) (nc out)
            (fun i j => if (r0 <=? i) && (i <? r0 + rl) && (c0 <=? j) && (j <? c0 + cl)
                        then at2 src (bc_idx (nr src) (i - r0)) (bc_idx (nc src) (j - c0))
                        else at2 out i j))
  else Err ValueError.

(** *** Boolean-mask extraction [a[mask]] in row-major order, as a list. *)
Definition zrange (n : Z) : list Z := map Z.of_nat (seq 0 (Z.to_nat n)).
Definition indices (r c : Z) : list (Z * Z) := list_prod (zrange r) (zrange c).
Definition elements {A} (a : arr A) : list A :=
  map (fun p => at2 a (fst p) (snd p)) (indices (nr a) (nc a)).
Definition select {A} (mask : arr bool) (a : arr A) : list A :=
  map (fun p => at2 a (fst p) (snd p))
      (filter (fun p => at2 mask (fst p) (snd p)) (indices (nr a) (nc a))).

Definition same_shape {A B} (a : arr A) (b : arr B) : bool :=
  (nr a =? nr b) && (nc a =? nc b).

(** *** Basic facts *)
Lemma aeq_refl {A} (a : arr A) : aeq a a.
Proof. repeat split; auto. Qed.
Lemma aeq_sym {A} (a b : arr A) : aeq a b -> aeq b a.
Proof.
  intros (H1 & H2 & H3); repeat split; auto. intros i j [Hi Hj]; symmetry; apply H3.
  unfold in_arr; lia.
Qed.
Lemma aeq_trans {A} (a b c : arr A) : aeq a b -> aeq b c -> aeq a c.
Proof.
  intros (H1 & H2 & H3) (K1 & K2 & K3); repeat split; try congruence.
  intros i j [Hi Hj]. rewrite H3 by (unfold in_arr; lia). apply K3. unfold in_arr; lia.
Qed.

Lemma in_arrb_spec {A} (a : arr A) i j : in_arrb a i j = true <-> in_arr a i j.
Proof.
  unfold in_arrb, in_arr. rewrite !andb_true_iff, !Z.leb_le, !Z.ltb_lt. lia.
Qed.
Lemma in_arrb_false {A} (a : arr A) i j : in_arrb a i j = false <-> ~ in_arr a i j.
Proof. rewrite <- in_arrb_spec. destruct (in_arrb a i j); split; congruence. Qed.

Lemma in_zrange n k : In k (zrange n) <-> 0 <= k < n.
Proof.
  unfold zrange. rewrite in_map_iff. split.
  - intros (x & <- & Hx). apply in_seq in Hx. lia.
  - intros H. exists (Z.to_nat k). split; [lia|]. apply in_seq. lia.
Qed.
Lemma length_zrange n : 0 <= n -> Z.of_nat (length (zrange n)) = n.
Proof. intros. unfold zrange. rewrite map_length, seq_length. lia. Qed.
Lemma in_indices r c p : In p (indices r c) <-> (0 <= fst p < r /\ 0 <= snd p < c).
Proof.
  unfold indices. destruct p as [i j]. rewrite in_prod_iff, !in_zrange. reflexivity.
Qed.
Lemma in_elements {A} (a : arr A) v :
  In v (elements a) <-> exists i j, in_arr a i j /\ v = at2 a i j.
Proof.
  unfold elements. rewrite in_map_iff. split.
  - intros ([i j] & <- & H). apply in_indices in H. exists i, j. auto.
  - intros (i & j & H & ->). exists (i, j). split; auto. apply in_indices. exact H.
Qed.
Lemma in_select {A} (m : arr bool) (a : arr A) v :
  In v (select m a) <-> exists i j, in_arr a i j /\ at2 m i j = true /\ v = at2 a i j.
Proof.
  unfold select. rewrite in_map_iff. split.
  - intros ([i j] & <- & H). apply filter_In in H. destruct H as [H Hm].
    apply in_indices in H. exists i, j. auto.
  - intros (i & j & H & Hm & ->). exists (i, j). split; auto. apply filter_In. split; auto.
    apply in_indices. exact H.
Qed.

Ltac arr_bool :=
  repeat match goal with
  | |- context [?a <=? ?b] => destruct (Z.leb_spec a b)
  | |- context [?a <? ?b] => destruct (Z.ltb_spec a b)
  | |- context [?a =? ?b] => destruct (Z.eqb_spec a b)
  end; cbn [andb orb negb].
Lemma same_shape_iff {A B} (a : arr A) (b : arr B) : same_shape a b = true <-> nr a = nr b /\ nc a = nc b.
Proof. unfold same_shape. rewrite andb_true_iff, !Z.eqb_eq. tauto. Qed.

