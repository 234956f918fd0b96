(** One-dimensional arrays and strided assignment. *)
From Coq Require Import ZArith Bool Lia Reals.
From Verif.Base Require Import Py Arr.
Open Scope Z_scope.

(** One-dimensional arrays. *)
Record vec (A : Type) := Vec { vlen : Z; vat : Z -> A }.
Arguments Vec {A} vlen vat.
Arguments vlen {A} v.
Arguments vat {A} v _.
Definition get_vslice {A} (v : vec A) (s : slice) : vec A :=
  Vec (slice_len (vlen v) s) (fun i => vat v (slice_lo (vlen v) s + i)).

(** Number of entries of the slice [start::step] (start >= 0, step > 0) of an axis of length [n]. *)
Definition stride_len (n start step : Z) : Z := Z.max 0 ((n - start + step - 1) / step).
(** Is index [i] of the axis in the slice [start::step]? *)
Definition on_stride (start step i : Z) : bool := (start <=? i) && ((i - start) mod step =? 0).
(** [out[r0::rs, c0::cs] = src], raising ValueError when [src] cannot be broadcast. *)
Definition set_strided {A} (out : arr A) (r0 rs c0 cs : Z) (src : arr A) : res (arr A) :=
  check bc_ok (stride_len (nr out) r0 rs) (nr src) && bc_ok (stride_len (nc out) c0 cs) (nc src) else ValueError;
  Ok (Arr (nr out) (nc out) (fun i j =>
    if on_stride r0 rs i && on_stride c0 cs j
    then at2 src (bc_idx (nr src) ((i - r0) / rs)) (bc_idx (nc src) ((j - c0) / cs))
    else at2 out i j)).
(** [out[r0::rs, c0::cs] = f out[...]] for an elementwise update with a scalar. *)
Definition upd_strided {A} (out : arr A) (r0 rs c0 cs : Z) (f : A -> A) : arr A :=
  Arr (nr out) (nc out) (fun i j =>
    if on_stride r0 rs i && on_stride c0 cs j then f (at2 out i j) else at2 out i j).

Lemma on_stride_spec start step i : 0 < step ->
  on_stride start step i = true <-> exists k, 0 <= k /\ i = start + k * step.
Proof.
  intros Hs. unfold on_stride. rewrite andb_true_iff, Z.leb_le, Z.eqb_eq. split.
  - intros [H1 H2]. exists ((i - start) / step). split; [apply Z.div_pos; lia|].
    rewrite Z.mul_comm. pose proof (Z.div_mod (i - start) step ltac:(lia)). lia.
  - intros (k & Hk & ->). split; [nia|]. replace (start + k * step - start) with (k * step) by ring.
    apply Z.mod_mul. lia.
Qed.

(** The value of an array of reals extended by zero outside its bounds. *)
Definition at0 (a : arr R) (i j : Z) : R := if in_arrb a i j then at2 a i j else 0%R.
(** [d] is the linear combination [x a + y b] (of equal shapes). *)
Definition lin_rel (x y : R) (a b d : arr R) : Prop :=
  nr a = nr d /\ nc a = nc d /\ nr b = nr d /\ nc b = nc d /\
  forall i j, in_arr d i j -> at2 d i j = (x * at2 a i j + y * at2 b i j)%R.
(** A shape-preserving linear operation on arrays. *)
Definition linear_op (f : arr R -> arr R) : Prop :=
  (forall a, nr (f a) = nr a /\ nc (f a) = nc a) /\
  forall x y a b d, lin_rel x y a b d -> lin_rel x y (f a) (f b) (f d).
Lemma at0_in a i j : in_arr a i j -> at0 a i j = at2 a i j.
Proof. intros H. unfold at0. apply in_arrb_spec in H. rewrite H. reflexivity. Qed.
Lemma at0_out a i j : ~ in_arr a i j -> at0 a i j = 0%R.
Proof. intros H. unfold at0. apply in_arrb_false in H. rewrite H. reflexivity. Qed.
