(** Scan conversion of a rotated rectangle: chords, the loops, the result. *)
From Coq Require Import ZArith Bool List Reals Lra Lia Psatz.
From Flocq Require Import Core.Raux Core.Generic_fmt Core.Round_NE.
From Verif.Base Require Import Py Arr Sums.
From Verif.Model Require Import Fits PadCrop Shapes RectProper.
From Verif.Spec Require Import RectProperSpec.
From Verif.Proofs Require Import PadCropP FitsP RectProperP.
Import ListNotations.
Open Scope R_scope.

Lemma le_div c x u : 0 < c -> (x <= u / c <-> c * x <= u).
Proof.
  intros H. split; intros A.
  - apply (Rmult_le_compat_l c) in A; [|lra]. replace (c * (u / c)) with u in A by (field; lra). exact A.
  - apply Rmult_le_reg_l with c; [lra|]. replace (c * (u / c)) with u by (field; lra). exact A.
Qed.
Lemma div_le c x u : 0 < c -> (u / c <= x <-> u <= c * x).
Proof.
  intros H. split; intros A.
  - apply (Rmult_le_compat_l c) in A; [|lra]. replace (c * (u / c)) with u in A by (field; lra). exact A.
  - apply Rmult_le_reg_l with c; [lra|]. replace (c * (u / c)) with u by (field; lra). exact A.
Qed.
Lemma div_le_div c d u v : 0 < c -> 0 < d -> (u / c <= v / d <-> d * u <= c * v).
Proof.
  intros Hc Hd. rewrite (div_le c _ _ Hc).
  replace (c * (v / d)) with ((c * v) / d) by (field; lra). rewrite (le_div d _ _ Hd). reflexivity.
Qed.

(** ** Chords of a rectangle whose lowest, leftmost corner is the first *)
Section Frame.
Variables a b c s X Y : R.
Hypothesis Ha : 0 < a.
Hypothesis Hb : 0 < b.
Hypothesis Hc : 0 < c.
Hypothesis Hs : 0 <= s.
Hypothesis Hcs : c * c + s * s = 1.
Definition in_cs (x y : R) : Prop := - a <= c * (x - X) + s * (y - Y) <= a /\ - b <= - s * (x - X) + c * (y - Y) <= b.
Definition ylow := Y - a * s - b * c.
Definition yleft := Y - a * s + b * c.
Definition ytop := Y + a * s + b * c.
Definition yright := Y + a * s - b * c.
Definition lo (y : R) : R := if Rle_dec y yleft then X + (- a - s * (y - Y)) / c else X + (c * (y - Y) - b) / s.
Definition hi (y : R) : R := if Rlt_dec y yright then X + (c * (y - Y) + b) / s else X + (a - s * (y - Y)) / c.
Lemma frame_pos : 0 < b * c /\ 0 <= a * s /\ (s = 0 \/ 0 < s /\ 0 < a * s).
Proof. split; [nra|]. split; [nra|]. destruct (Req_dec s 0); [left; auto|right; split; nra]. Qed.
Lemma in_cs_range x y : in_cs x y -> ylow <= y <= ytop.
Proof.
  intros [[A1 A2] [B1 B2]]. unfold ylow, ytop.
  assert (E : y - Y = s * (c * (x - X) + s * (y - Y)) + c * (- s * (x - X) + c * (y - Y))).
  { replace (y - Y) with ((c * c + s * s) * (y - Y)) at 1 by (rewrite Hcs; ring). ring. }
  set (u := c * (x - X) + s * (y - Y)) in *. set (v := - s * (x - X) + c * (y - Y)) in *. clearbody u v. nra.
Qed.
Lemma chord x y : ylow <= y <= ytop -> (in_cs x y <-> lo y <= x <= hi y).
Proof.
  intros R. destruct frame_pos as (P1 & P2 & P3). unfold in_cs, lo, hi, ylow, ytop, yleft, yright in *.
  set (p := x - X). set (q := y - Y).
  assert (Q : - (a * s) - b * c <= q <= a * s + b * c) by (unfold q; lra).
  assert (L1 : X + (- a - s * q) / c <= x <-> - a <= c * p + s * q).
  { pose proof (div_le c p (- a - s * q) Hc). unfold p in *. split; intros; [|]. assert (- a - s * q <= c * (x - X)) by (apply H; lra). lra.
    assert ((- a - s * q) / c <= x - X) by (apply H; lra). lra. }
  assert (H1 : x <= X + (a - s * q) / c <-> c * p + s * q <= a).
  { pose proof (le_div c p (a - s * q) Hc). unfold p in *. split; intros; [|]. assert (c * (x - X) <= a - s * q) by (apply H; lra). lra.
    assert (x - X <= (a - s * q) / c) by (apply H; lra). lra. }
  destruct P3 as [S0|[Sp P3]].
  - assert (c = 1) by nra. assert (a * s = 0) by (rewrite S0; ring). assert (b * c = b) by (rewrite H; ring).
    assert (c * q = q) by (rewrite H; ring). assert (s * p = 0) by (rewrite S0; ring).
    destruct (Rle_dec y (Y - a * s + b * c)) as [A|A]; [|lra].
    destruct (Rlt_dec y (Y + a * s - b * c)) as [B|B]; [lra|].
    rewrite L1, H1. split; intros; [tauto|split; [tauto|]]. unfold q in *. lra.
  - assert (L2 : X + (c * q - b) / s <= x <-> - s * p + c * q <= b).
    { pose proof (div_le s p (c * q - b) Sp). unfold p in *. split; intros; [|]. assert (c * q - b <= s * (x - X)) by (apply H; lra). lra.
      assert ((c * q - b) / s <= x - X) by (apply H; lra). lra. }
    assert (H2 : x <= X + (c * q + b) / s <-> - b <= - s * p + c * q).
    { pose proof (le_div s p (c * q + b) Sp). unfold p in *. split; intros; [|]. assert (s * (x - X) <= c * q + b) by (apply H; lra). lra.
      assert (x - X <= (c * q + b) / s) by (apply H; lra). lra. }
    assert (qq : c * (c * q) + s * (s * q) = q) by (transitivity ((c * c + s * s) * q); [ring|rewrite Hcs; ring]).
    pose proof (div_le_div s c (c * q - b) (- a - s * q) Sp Hc) as M1.
    pose proof (div_le_div c s (- a - s * q) (c * q - b) Hc Sp) as M2.
    pose proof (div_le_div c s (a - s * q) (c * q + b) Hc Sp) as N1.
    pose proof (div_le_div s c (c * q + b) (a - s * q) Sp Hc) as N2.
    destruct (Rle_dec y (Y - a * s + b * c)) as [A|A]; destruct (Rlt_dec y (Y + a * s - b * c)) as [B|B];
    fold q; rewrite <- L1, <- L2, <- H1, <- H2;
    [assert ((c * q - b) / s <= (- a - s * q) / c) by (apply M1; unfold q in *; lra);
     assert ((c * q + b) / s <= (a - s * q) / c) by (apply N2; unfold q in *; lra)
    |assert ((c * q - b) / s <= (- a - s * q) / c) by (apply M1; unfold q in *; lra);
     assert ((a - s * q) / c <= (c * q + b) / s) by (apply N1; unfold q in *; lra)
    |assert ((- a - s * q) / c <= (c * q - b) / s) by (apply M2; unfold q in *; lra);
     assert ((c * q + b) / s <= (a - s * q) / c) by (apply N2; unfold q in *; lra)
    |assert ((- a - s * q) / c <= (c * q - b) / s) by (apply M2; unfold q in *; lra);
     assert ((a - s * q) / c <= (c * q + b) / s) by (apply N1; unfold q in *; lra)]; lra.
Qed.
Lemma lo_le_hi y : ylow <= y <= ytop -> lo y <= hi y.
Proof.
  intros R. destruct frame_pos as (P1 & P2 & P3). unfold lo, hi, ylow, ytop, yleft, yright in *.
  set (q := y - Y). assert (Q : - (a * s) - b * c <= q <= a * s + b * c) by (unfold q; lra).
  assert (qq : c * (c * q) + s * (s * q) = q) by (transitivity ((c * c + s * s) * q); [ring|rewrite Hcs; ring]).
  destruct (Rle_dec y (Y - a * s + b * c)) as [A|A]; destruct (Rlt_dec y (Y + a * s - b * c)) as [B|B];
  apply Rplus_le_compat_l.
  - assert (0 < s) by (destruct P3 as [->|[? _]]; lra). apply div_le_div; auto. lra.
  - apply div_le_div; auto. nra.
  - assert (0 < s) by (destruct P3 as [->|[? _]]; lra). apply div_le_div; auto. nra.
  - assert (0 < s) by (destruct P3 as [->|[? _]]; [lra|assumption]). apply div_le_div; auto. lra.
Qed.
(** Covered length, in column j, of a line at height y. *)
Definition cov (y : R) (j : Z) : R :=
  if Rle_dec ylow y then if Rle_dec y ytop then overlap (lo y) (hi y) j else 0 else 0.

Lemma cov_length y j : length_where (fun x => in_cs x y) (IZR j - / 2) (IZR j + / 2) (cov y j).
Proof.
  unfold cov. destruct (Rle_dec ylow y) as [A|A]; [destruct (Rle_dec y ytop) as [B|B]|].
  2, 3: exists (IZR j - / 2), (IZR j - / 2); split; [lra|]; split; [lra|]; split; [lra|]; split;
        [intros x _ Px; exfalso; apply in_cs_range in Px; lra|intros x Hx; exfalso; lra].
  pose proof (lo_le_hi y (conj A B)) as LH.
  assert (CH : forall x, in_cs x y <-> lo y <= x <= hi y) by (intros; apply chord; lra).
  unfold overlap. set (l := lo y) in *. set (r := hi y) in *. clearbody l r.
  destruct (Rle_dec (Rmax l (IZR j - / 2)) (Rmin r (IZR j + / 2))) as [C|C].
  - exists (Rmax l (IZR j - / 2)), (Rmin r (IZR j + / 2)).
    pose proof (Rmax_l l (IZR j - / 2)). pose proof (Rmax_r l (IZR j - / 2)).
    pose proof (Rmin_l r (IZR j + / 2)). pose proof (Rmin_r r (IZR j + / 2)).
    rewrite (Rmax_right 0) by lra. split; [lra|]. split; [lra|]. split; [lra|]. split.
    + intros x Hx Px. apply CH in Px. split; [apply Rmax_lub; lra|apply Rmin_glb; lra].
    + intros x Hx. apply CH. lra.
  - exists (IZR j - / 2), (IZR j - / 2). rewrite (Rmax_left 0) by lra.
    split; [lra|]. split; [lra|]. split; [lra|]. split; [|intros x Hx; exfalso; lra].
    intros x Hx Px. exfalso. apply CH in Px. apply C. unfold Rmax, Rmin. repeat destruct Rle_dec; lra.
Qed.
End Frame.

(** ** The loops *)
Lemma eqR_dec x y : (x = y /\ eqR x y = true) \/ (x <> y /\ eqR x y = false).
Proof. unfold eqR. destruct (Req_EM_T x y); auto. Qed.
Lemma sub_y_lt mag ypix k k' : (0 < mag)%Z -> (k < k')%Z -> sub_y mag ypix k < sub_y mag ypix k'.
Proof.
  intros M H. unfold sub_y. apply IZR_lt in M, H. apply Rplus_lt_compat_l.
  apply Rmult_lt_compat_r; [apply Rinv_0_lt_compat; lra|lra].
Qed.
Lemma sub_y_le mag ypix k k' : (0 < mag)%Z -> (k <= k')%Z -> sub_y mag ypix k <= sub_y mag ypix k'.
Proof. intros M H. destruct (Z.eq_dec k k') as [->|]; [lra|]. apply Rlt_le, sub_y_lt; lia. Qed.
Lemma sub_y_next mag ypix : (0 < mag)%Z -> sub_y mag ypix mag = sub_y mag (ypix + 1) 0.
Proof. intros M. apply IZR_lt in M. unfold sub_y. rewrite plus_IZR. field. lra. Qed.
Lemma sub_y_range mag ypix q : (0 <= q < mag)%Z -> IZR ypix - / 2 < sub_y mag ypix q < IZR ypix + / 2.
Proof.
  intros [Q1 Q2]. assert (M : (0 < mag)%Z) by lia. apply IZR_lt in M. apply IZR_le in Q1. apply izr_lt in Q2.
  unfold sub_y. assert (0 < (/ 2 + IZR q) / IZR mag < 1); [|lra]. split.
  - apply Rdiv_lt_0_compat; lra.
  - apply Rmult_lt_reg_r with (IZR mag); [lra|]. unfold Rdiv. rewrite Rmult_assoc, Rinv_l by lra. lra.
Qed.

Section Scan.
Variables a b c s X Y : R.
Hypothesis Ha : 0 < a.
Hypothesis Hb : 0 < b.
Hypothesis Hc : 0 < c.
Hypothesis Hs : 0 <= s.
Hypothesis Hcs : c * c + s * s = 1.
Variables xp yp : Z -> R.
Variables v0 v1 v2 v3 : Z.
Hypothesis L0 : next_left v0 = v1.
Hypothesis L1 : next_left v1 = v2.
Hypothesis L2 : next_left v2 = v3.
Hypothesis R0 : next_right v0 = v3.
Hypothesis R3 : next_right v3 = v2.
Hypothesis R2 : next_right v2 = v1.
Hypothesis X0 : xp v0 = X - a * c + b * s.
Hypothesis X1 : xp v1 = X - a * c - b * s.
Hypothesis X2 : xp v2 = X + a * c - b * s.
Hypothesis X3 : xp v3 = X + a * c + b * s.
Hypothesis Y0 : yp v0 = Y - a * s - b * c.
Hypothesis Y1 : yp v1 = Y - a * s + b * c.
Hypothesis Y2 : yp v2 = Y + a * s + b * c.
Hypothesis Y3 : yp v3 = Y + a * s - b * c.
Hypothesis Ytop : max4 yp = yp v2.
Notation lo := (lo a b c s X Y).
Notation hi := (hi a b c s X Y).
Notation cov := (cov a b c s X Y).

Definition Inv (st : scan) (y : R) : Prop :=
  ((left st = v0 /\ leftnext st = v1) \/ (left st = v1 /\ leftnext st = v2 /\ yp v1 < y)
   \/ (left st = v2 /\ leftnext st = v3 /\ yp v2 < y)) /\
  ((right st = v0 /\ rightnext st = v3) \/ (right st = v3 /\ rightnext st = v2 /\ yp v3 < y)
   \/ (right st = v2 /\ rightnext st = v1 /\ yp v2 < y)).
Lemma Inv_mono st y y' : y <= y' -> Inv st y -> Inv st y'.
Proof. intros H [A B]. split; [destruct A as [?|[?|?]]|destruct B as [?|[?|?]]]; intuition lra. Qed.

Lemma e01 y : edge_x xp yp v0 v1 y = X + (- a - s * (y - Y)) / c.
Proof.
  unfold edge_x. rewrite X0, X1, Y0, Y1. rewrite eqR_false by nra.
  assert (b * c <> 0) by nra.
  replace ((X - a * c - b * s - (X - a * c + b * s)) / (Y - a * s + b * c - (Y - a * s - b * c))) with (- s / c) by (field; lra).
  replace (X + (- a - s * (y - Y)) / c) with (X + (- a * (c * c + s * s) - s * (y - Y)) / c) by (rewrite Hcs; field; lra).
  field. lra.
Qed.
Lemma e32 y : edge_x xp yp v3 v2 y = X + (a - s * (y - Y)) / c.
Proof.
  unfold edge_x. rewrite X3, X2, Y3, Y2. rewrite eqR_false by nra.
  assert (b * c <> 0) by nra.
  replace ((X + a * c - b * s - (X + a * c + b * s)) / (Y + a * s + b * c - (Y + a * s - b * c))) with (- s / c) by (field; lra).
  replace (X + (a - s * (y - Y)) / c) with (X + (a * (c * c + s * s) - s * (y - Y)) / c) by (rewrite Hcs; field; lra).
  field. lra.
Qed.
Lemma e12 y : 0 < s -> edge_x xp yp v1 v2 y = X + (c * (y - Y) - b) / s.
Proof.
  intros P. unfold edge_x. rewrite X1, X2, Y1, Y2. rewrite eqR_false by nra.
  assert (a * s <> 0) by nra.
  replace ((X + a * c - b * s - (X - a * c - b * s)) / (Y + a * s + b * c - (Y - a * s + b * c))) with (c / s) by (field; lra).
  replace (X + (c * (y - Y) - b) / s) with (X + (c * (y - Y) - b * (c * c + s * s)) / s) by (rewrite Hcs; field; lra).
  field. lra.
Qed.
Lemma e03 y : 0 < s -> edge_x xp yp v0 v3 y = X + (c * (y - Y) + b) / s.
Proof.
  intros P. unfold edge_x. rewrite X0, X3, Y0, Y3. rewrite eqR_false by nra.
  assert (a * s <> 0) by nra.
  replace ((X + a * c + b * s - (X - a * c + b * s)) / (Y + a * s - b * c - (Y - a * s - b * c))) with (c / s) by (field; lra).
  replace (X + (c * (y - Y) + b) / s) with (X + (c * (y - Y) + b * (c * c + s * s)) / s) by (rewrite Hcs; field; lra).
  field. lra.
Qed.
Lemma e23 : edge_x xp yp v2 v3 (yp v2) = xp v2.
Proof.
  unfold edge_x. destruct (eqR_dec (yp v3 - yp v2) 0) as [[_ E]|[_ E]]; rewrite E; [reflexivity|].
  replace (yp v2 - yp v2) with 0 by ring. ring.
Qed.
Lemma e21 : edge_x xp yp v2 v1 (yp v2) = xp v2.
Proof.
  unfold edge_x. destruct (eqR_dec (yp v1 - yp v2) 0) as [[_ E]|[_ E]]; rewrite E; [reflexivity|].
  replace (yp v2 - yp v2) with 0 by ring. ring.
Qed.

Lemma left_step st y : Inv st y -> yp v0 <= y <= yp v2 ->
  let '(l, ln) := if Rleb (yp (leftnext st)) y then (leftnext st, next_left (leftnext st)) else (left st, leftnext st) in
  edge_x xp yp l ln y = lo y /\
  ((l = v0 /\ ln = v1) \/ (l = v1 /\ ln = v2 /\ yp v1 <= y) \/ (l = v2 /\ ln = v3 /\ yp v2 <= y)).
Proof.
  intros [A _] R. destruct (frame_pos a b c s Ha Hb Hc Hs) as (P1 & P2 & P3).
  destruct A as [[-> ->]|[(-> & -> & A)|(_ & _ & A)]]; [| |lra].
  - destruct (Rleb (yp v1) y) eqn:E.
    + apply Rleb_iff in E. rewrite L1. split; [|auto]. unfold RectProperQ.lo, yleft. rewrite <- Y1.
      destruct P3 as [S0|[Sp _]].
      * assert (y = yp v1) by (rewrite Y1, Y2 in *; rewrite S0 in *; lra). destruct Rle_dec; [|lra].
        assert (c = 1) by nra. unfold edge_x. rewrite eqR_true by (rewrite Y1, Y2, S0; ring).
        rewrite X1, S0, H0. field.
      * rewrite (e12 y Sp). destruct Rle_dec as [H|H]; [|reflexivity].
        assert (y = yp v1) by lra. subst y. rewrite Y1. f_equal.
        transitivity (- a * c - b * s).
        -- replace (c * (Y - a * s + b * c - Y) - b) with (c * (Y - a * s + b * c - Y) - b * (c * c + s * s)) by (rewrite Hcs; ring).
           field. lra.
        -- replace (- a - s * (Y - a * s + b * c - Y)) with (- a * (c * c + s * s) - s * (Y - a * s + b * c - Y)) by (rewrite Hcs; ring).
           field. lra.
    + apply Rleb_false in E. split; [|auto]. rewrite e01. unfold RectProperQ.lo, yleft. rewrite <- Y1. destruct Rle_dec; [reflexivity|lra].
  - assert (Sp : 0 < s) by (destruct P3 as [S0|[? _]]; [rewrite Y1, Y2 in *; rewrite S0 in *; lra|assumption]).
    destruct (Rleb (yp v2) y) eqn:E.
    + apply Rleb_iff in E. rewrite L2. split; [|auto]. assert (y = yp v2) by lra. subst y. rewrite e23.
      unfold RectProperQ.lo, yleft. rewrite <- Y1. destruct Rle_dec; [lra|].
      rewrite X2, Y2. 
      replace (c * (Y + a * s + b * c - Y) - b) with (s * (a * c - b * s)); [field; lra|].
      replace (c * (Y + a * s + b * c - Y) - b) with (c * (Y + a * s + b * c - Y) - b * (c * c + s * s)) by (rewrite Hcs; ring). ring.
    + apply Rleb_false in E. split; [|right; left; repeat split; lra]. rewrite (e12 y Sp).
      unfold RectProperQ.lo, yleft. rewrite <- Y1. destruct Rle_dec; [lra|reflexivity].
Qed.
Lemma right_step st y : Inv st y -> yp v0 <= y <= yp v2 ->
  let '(l, ln) := if Rleb (yp (rightnext st)) y then (rightnext st, next_right (rightnext st)) else (right st, rightnext st) in
  edge_x xp yp l ln y = hi y /\
  ((l = v0 /\ ln = v3) \/ (l = v3 /\ ln = v2 /\ yp v3 <= y) \/ (l = v2 /\ ln = v1 /\ yp v2 <= y)).
Proof.
  intros [_ A] R. destruct (frame_pos a b c s Ha Hb Hc Hs) as (P1 & P2 & P3).
  destruct A as [[-> ->]|[(-> & -> & A)|(_ & _ & A)]]; [| |lra].
  - destruct (Rleb (yp v3) y) eqn:E.
    + apply Rleb_iff in E. rewrite R3. split; [|auto]. rewrite e32. unfold RectProperQ.hi, yright. rewrite <- Y3.
      destruct Rlt_dec; [lra|reflexivity].
    + apply Rleb_false in E. split; [|auto].
      assert (Sp : 0 < s) by (destruct P3 as [S0|[? _]]; [rewrite Y0, Y3 in *; rewrite S0 in *; lra|assumption]).
      rewrite (e03 y Sp). unfold RectProperQ.hi, yright. rewrite <- Y3. destruct Rlt_dec; [reflexivity|lra].
  - destruct (Rleb (yp v2) y) eqn:E.
    + apply Rleb_iff in E. rewrite R2. split; [|auto]. assert (y = yp v2) by lra. subst y. rewrite e21.
      unfold RectProperQ.hi, yright. rewrite <- Y3. destruct Rlt_dec; [lra|].
      rewrite X2, Y2.
      replace (a - s * (Y + a * s + b * c - Y)) with (c * (a * c - b * s)); [field; lra|].
      replace (a - s * (Y + a * s + b * c - Y)) with (a * (c * c + s * s) - s * (Y + a * s + b * c - Y)) by (rewrite Hcs; ring). ring.
    + apply Rleb_false in E. split; [|right; left; repeat split; lra]. rewrite e32.
      unfold RectProperQ.hi, yright. rewrite <- Y3. destruct Rlt_dec; [lra|reflexivity].
Qed.
Definition here (ngrid ypix i j : Z) : bool := (i =? ypix)%Z && (0 <=? j)%Z && (j <? ngrid)%Z.
Lemma line_step ngrid mag ypix st y y' : Inv st y -> yp v0 <= y <= yp v2 -> y < y' ->
  Inv (scan_line xp yp ngrid mag ypix y st) y' /\
  forall i j, image (scan_line xp yp ngrid mag ypix y st) i j =
              image st i j + (if here ngrid ypix i j then IZR mag * cov y j else 0).
Proof.
  intros I R Hy. unfold scan_line. pose proof (left_step st y I R) as A. pose proof (right_step st y I R) as B.
  destruct (if Rleb (yp (leftnext st)) y then _ else _) as [l ln].
  destruct (if Rleb (yp (rightnext st)) y then _ else _) as [r rn].
  destruct A as [A1 A2], B as [B1 B2]. split.
  - split; cbn [left leftnext right rightnext]; [clear -A2 Hy; intuition lra|clear -B2 Hy; intuition lra].
  - intros i j. cbn [image]. rewrite A1, B1, paint_at.
    + unfold here, RectProperQ.cov, ylow, ytop. rewrite <- Y0, <- Y2. destruct Rle_dec; [|lra]. destruct Rle_dec; [|lra]. reflexivity.
    + apply lo_le_hi; auto. unfold ylow, ytop. rewrite <- Y0, <- Y2. exact R.
Qed.
Lemma cov_low y j : y < yp v0 -> cov y j = 0.
Proof. intros H. unfold RectProperQ.cov, ylow. rewrite <- Y0. destruct Rle_dec; [lra|reflexivity]. Qed.
Lemma cov_high y j : yp v2 < y -> cov y j = 0.
Proof. intros H. unfold RectProperQ.cov, ytop. rewrite <- Y2. destruct Rle_dec; [|reflexivity]. destruct Rle_dec; [lra|reflexivity]. Qed.
Lemma sub_loop_is ngrid mag ypix n : (0 < mag)%Z -> forall ysub st, Inv st (sub_y mag ypix ysub) ->
  Inv (sub_loop xp yp ngrid mag ypix ysub n st) (sub_y mag ypix (ysub + Z.of_nat n)) /\
  forall i j, image (sub_loop xp yp ngrid mag ypix ysub n st) i j = image st i j +
    (if here ngrid ypix i j then IZR mag * rsum (fun q => cov (sub_y mag ypix (ysub + q)) j) (Z.of_nat n) else 0).
Proof.
  intros M. induction n as [|n IH]; intros ysub st I.
  { cbn [sub_loop]. split; [replace (ysub + Z.of_nat 0)%Z with ysub by lia; exact I|].
    intros i j. rewrite rsum_0 by lia. destruct here; lra. }
  cbn [sub_loop]. set (y := sub_y mag ypix ysub) in *.
  assert (F : forall j, rsum (fun q => cov (sub_y mag ypix (ysub + q)) j) (Z.of_nat (S n)) =
                        cov y j + rsum (fun q => cov (sub_y mag ypix (ysub + 1 + q)) j) (Z.of_nat n)).
  { intros j. replace (Z.of_nat (S n)) with (Z.of_nat n + 1)%Z by lia. rewrite rsum_first by lia.
    replace (ysub + 0)%Z with ysub by lia. unfold y. f_equal. apply rsum_ext. intros. do 2 f_equal. lia. }
  replace (ysub + Z.of_nat (S n))%Z with (ysub + 1 + Z.of_nat n)%Z by lia.
  assert (Hn : y < sub_y mag ypix (ysub + 1)) by (apply sub_y_lt; lia).
  assert (Low : Rltb y (yp (left st)) = true <-> y < yp v0).
  { rewrite Rltb_iff. pose proof (frame_pos a b c s Ha Hb Hc Hs).
    destruct I as [[[-> _]|[(-> & _ & G)|(-> & _ & G)]] _]; [tauto| |]; rewrite ?Y0, ?Y1, ?Y2 in *; split; intros; lra. }
  destruct (Rltb y (yp (left st))) eqn:E.
  { pose proof (proj1 Low eq_refl) as G. destruct (IH (ysub + 1)%Z st) as [I1 I2]; [apply (Inv_mono _ y); [lra|auto]|].
    split; [exact I1|]. intros i j. rewrite I2, F, (cov_low y j G). destruct here; lra. }
  assert (G : yp v0 <= y) by (destruct (Rle_lt_dec (yp v0) y); [assumption|assert (false = true) by tauto; discriminate]).
  rewrite Ytop. destruct (Rltb (yp v2) y) eqn:T.
  { apply Rltb_iff in T. split.
    - apply (Inv_mono _ y); [apply sub_y_le; lia|exact I].
    - intros i j. rewrite F. rewrite (cov_high y j T).
      rewrite rsum_all_zero. + destruct here; lra.
      + intros k Hk. apply cov_high. apply Rlt_trans with y; [exact T|apply sub_y_lt; lia]. }
  apply Rltb_false in T.
  destruct (line_step ngrid mag ypix st y (sub_y mag ypix (ysub + 1)) I (conj G T) Hn) as [J1 J2].
  destruct (IH (ysub + 1)%Z _ J1) as [I1 I2]. split; [exact I1|].
  intros i j. rewrite I2, F, J2. destruct here; lra.
Qed.
Lemma row_loop_is ngrid mag n : (0 < mag)%Z -> forall ypix st, Inv st (sub_y mag ypix 0) ->
  forall i j, image (row_loop xp yp ngrid mag ypix n st) i j = image st i j +
    (if (ypix <=? i)%Z && (i <? ypix + Z.of_nat n)%Z && (0 <=? j)%Z && (j <? ngrid)%Z
     then IZR mag * rsum (fun q => cov (sub_y mag i q) j) mag else 0).
Proof.
  intros M. induction n as [|n IH]; intros ypix st I i j.
  { cbn [row_loop]. destruct (Z.leb_spec ypix i), (Z.ltb_spec i (ypix + Z.of_nat 0)); cbn [andb]; try lia; lra. }
  cbn [row_loop]. destruct (sub_loop_is ngrid mag ypix (Z.to_nat mag) M 0 st I) as [I1 I2].
  rewrite Z2Nat.id in I1, I2 by lia. rewrite Z.add_0_l in I1. rewrite (sub_y_next mag ypix M) in I1.
  rewrite (IH _ _ I1), I2. unfold here.
  rewrite (rsum_ext (fun q => cov (sub_y mag ypix (0 + q)) j) (fun q => cov (sub_y mag ypix q) j)) by (intros; reflexivity).
  destruct (Z.eqb_spec i ypix) as [->|Ne].
  - destruct (Z.leb_spec (ypix + 1) ypix); [lia|]. destruct (Z.leb_spec ypix ypix); [|lia].
    destruct (Z.ltb_spec ypix (ypix + Z.of_nat (S n))); [|lia]. cbn [andb]. destruct ((0 <=? j)%Z && (j <? ngrid)%Z); lra.
  - cbn [andb].
    replace (ypix + Z.of_nat (S n))%Z with (ypix + 1 + Z.of_nat n)%Z by lia.
    replace (ypix + 1 <=? i)%Z with (ypix <=? i)%Z; [lra|].
    destruct (Z.leb_spec ypix i), (Z.leb_spec (ypix + 1) i); lia || reflexivity.
Qed.
End Scan.

(** ** The four quadrants of the rotation *)
Definition raster (P : R -> R -> Prop) (xp yp : Z -> R) : Prop :=
  exists cv : R -> Z -> R,
  (forall y j, length_where (fun x => P x y) (IZR j - / 2) (IZR j + / 2) (cv y j)) /\
  (forall y j, y < min4 yp -> cv y j = 0) /\ (forall y j, max4 yp < y -> cv y j = 0) /\
  let l := first_corner xp yp in
  forall ngrid mag n ypix i j, (0 < mag)%Z ->
  image (row_loop xp yp ngrid mag ypix n (Scan (fun _ _ => 0) l (next_left l) l (next_right l))) i j =
    if (ypix <=? i)%Z && (i <? ypix + Z.of_nat n)%Z && (0 <=? j)%Z && (j <? ngrid)%Z
    then IZR mag * rsum (fun q => cv (sub_y mag i q) j) mag else 0.
Lemma length_where_ext P Q p q l : (forall x, P x <-> Q x) -> length_where P p q l -> length_where Q p q l.
Proof.
  intros E (u & v & A & B & D & F & G). exists u, v. split; [exact A|]. split; [exact B|]. split; [exact D|]. split.
  - intros x Hx Qx. apply F; [exact Hx|]. apply E, Qx.
  - intros x Hx. apply E, G, Hx.
Qed.
Lemma raster_of_frame P xp yp a b c s X Y v0 v1 v2 v3 :
  0 < a -> 0 < b -> 0 < c -> 0 <= s -> c * c + s * s = 1 ->
  (v0, v1, v2, v3) = (0, 1, 2, 3)%Z \/ (v0, v1, v2, v3) = (1, 2, 3, 0)%Z \/
  (v0, v1, v2, v3) = (2, 3, 0, 1)%Z \/ (v0, v1, v2, v3) = (3, 0, 1, 2)%Z ->
  xp v0 = X - a * c + b * s -> xp v1 = X - a * c - b * s -> xp v2 = X + a * c - b * s -> xp v3 = X + a * c + b * s ->
  yp v0 = Y - a * s - b * c -> yp v1 = Y - a * s + b * c -> yp v2 = Y + a * s + b * c -> yp v3 = Y + a * s - b * c ->
  (forall x y, in_cs a b c s X Y x y <-> P x y) -> raster P xp yp.
Proof.
  intros Ha Hb Hc Hs Hcs V X0 X1 X2 X3 Y0 Y1 Y2 Y3 HP.
  destruct (frame_pos a b c s Ha Hb Hc Hs) as (P1 & P2 & P3).
  assert (Vr : forall k, (0 <= k <= 3)%Z -> k = v0 \/ k = v1 \/ k = v2 \/ k = v3).
  { intros k Hk. destruct V as [V|[V|[V|V]]]; inversion V; lia. }
  assert (R0 : (0 <= v0 <= 3)%Z) by (destruct V as [V|[V|[V|V]]]; inversion V; lia).
  assert (R2 : (0 <= v2 <= 3)%Z) by (destruct V as [V|[V|[V|V]]]; inversion V; lia).
  assert (Mn : forall k, (0 <= k <= 3)%Z -> yp v0 <= yp k).
  { intros k Hk. destruct (Vr k Hk) as [->|[->|[->| ->]]]; lra. }
  assert (Mx : forall k, (0 <= k <= 3)%Z -> yp k <= yp v2).
  { intros k Hk. destruct (Vr k Hk) as [->|[->|[->| ->]]]; lra. }
  assert (FC : first_corner xp yp = v0).
  { apply first_corner_is; auto. intros k Hk Ne E. destruct (Vr k Hk) as [->|[->|[->| ->]]]; try lra; try congruence.
    rewrite X0, X3. assert (a * s = 0) by lra. assert (s = 0) by nra. assert (0 < a * c) by nra. subst s. lra. }
  exists (cov a b c s X Y). split; [|split; [|split]].
  - intros y j. apply (length_where_ext (fun x => in_cs a b c s X Y x y)); [intros; apply HP|]. apply cov_length; auto.
  - intros y j H. rewrite (min4_is yp v0 R0 Mn) in H. apply cov_low with (yp := yp) (v0 := v0); auto.
  - intros y j H. rewrite (max4_is yp v2 R2 Mx) in H. apply cov_high with (yp := yp) (v2 := v2); auto.
  - cbv zeta. rewrite FC. intros ngrid mag n ypix i j M.
    assert (N : next_left v0 = v1 /\ next_left v1 = v2 /\ next_left v2 = v3 /\ next_right v0 = v3 /\ next_right v3 = v2 /\ next_right v2 = v1).
    { destruct V as [V|[V|[V|V]]]; inversion V; repeat split. }
    destruct N as (N1 & N2 & N3 & N4 & N5 & N6).
    rewrite (row_loop_is a b c s X Y Ha Hb Hc Hs Hcs xp yp v0 v1 v2 v3 N2 N3 N5 N6 X0 X1 X2 X3 Y0 Y1 Y2 Y3
              (max4_is yp v2 R2 Mx) ngrid mag n M ypix).
    + cbn [image]. destruct (_ && _); lra.
    + split; left; cbn [left leftnext right rightnext]; auto.
Qed.
Lemma raster_rect w h t X Y : 0 < w -> 0 < h ->
  raster (fun x y => in_rotated_rect w h t (x - X) (y - Y))
    (fun k => xp0 (/ 2 * w) k * cos t - yp0 (/ 2 * h) k * sin t + X)
    (fun k => xp0 (/ 2 * w) k * sin t + yp0 (/ 2 * h) k * cos t + Y).
Proof.
  intros Hw Hh. pose proof (sin2_cos2 t) as T. unfold Rsqr in T. unfold in_rotated_rect.
  set (c := cos t) in *. set (s := sin t) in *. clearbody c s.
  assert (CS : (0 < c /\ 0 <= s) \/ (0 < s /\ c <= 0) \/ (c < 0 /\ s <= 0) \/ (s < 0 /\ 0 <= c)).
  { destruct (Rtotal_order c 0) as [?|[?|?]], (Rtotal_order s 0) as [?|[?|?]]; try (intuition lra). subst. lra. }
  destruct CS as [[A B]|[[A B]|[[A B]|[A B]]]].
  - apply (raster_of_frame _ _ _ (/ 2 * w) (/ 2 * h) c s X Y 0 1 2 3); try lra; auto;
    try (unfold xp0, yp0; cbn [Z.leb Z.eqb Pos.eqb orb Z.compare Pos.compare Pos.compare_cont]; ring).
    intros x y. unfold in_cs. split; intros [U V]; split; lra.
  - apply (raster_of_frame _ _ _ (/ 2 * h) (/ 2 * w) s (- c) X Y 1 2 3 0); try lra; auto;
    try (unfold xp0, yp0; cbn [Z.leb Z.eqb Pos.eqb orb Z.compare Pos.compare Pos.compare_cont]; ring).
    intros x y. unfold in_cs. split; intros [U V]; split; lra.
  - apply (raster_of_frame _ _ _ (/ 2 * w) (/ 2 * h) (- c) (- s) X Y 2 3 0 1); try lra; auto;
    try (unfold xp0, yp0; cbn [Z.leb Z.eqb Pos.eqb orb Z.compare Pos.compare Pos.compare_cont]; ring).
    intros x y. unfold in_cs. split; intros [U V]; split; lra.
  - apply (raster_of_frame _ _ _ (/ 2 * h) (/ 2 * w) (- s) c X Y 3 0 1 2); try lra; auto;
    try (unfold xp0, yp0; cbn [Z.leb Z.eqb Pos.eqb orb Z.compare Pos.compare Pos.compare_cont]; ring).
    intros x y. unfold in_cs. split; intros [U V]; split; lra.
Qed.

(** ** The result *)
Lemma length_where_shift P p q l d : length_where P p q l -> length_where (fun x => P (x + d)) (p - d) (q - d) l.
Proof.
  intros (u & v & A & B & D & F & G). exists (u - d), (v - d). repeat split; try lra.
  - intros; specialize (F (x + d) ltac:(lra) H0); lra.
  - intros; specialize (F (x + d) ltac:(lra) H0); lra.
  - intros x Hx. apply G. lra.
Qed.
Lemma length_where_range P p q l : length_where P p q l -> 0 <= l <= q - p.
Proof. intros (u & v & A & B & D & _). lra. Qed.
Lemma rect_proper_ok nx ny width height xOffset yOffset rot ns isDark :
  (0 < nx)%Z -> (0 < ny)%Z -> 0 < width -> 0 < height -> (0 < ns)%Z ->
  exists out seg, rect_proper nx ny width height xOffset yOffset rot ns isDark = Ok out /\ nr out = ny /\ nc out = nx /\
  forall i j, (0 <= i < ny)%Z -> (0 <= j < nx)%Z ->
  (forall q, (0 <= q < ns)%Z ->
   length_where (fun x => in_rotated_rect width height (rot * PI / 180) (x - xOffset)
                            ((IZR (i - ny / 2) - / 2 + (IZR q + / 2) / IZR ns) - yOffset))
     (IZR (j - nx / 2) - / 2) (IZR (j - nx / 2) + / 2) (seg i j q)) /\
  at2 out i j = (let m := rsum (seg i j) ns / IZR ns in if isDark then 1 - m else m).
Proof.
  intros Hx Hy Hw Hh Hn. unfold rect_proper.
  rewrite (proj2 (Z.ltb_lt _ _) Hx), (proj2 (Z.ltb_lt _ _) Hy), (proj2 (Rltb_iff _ _) Hw), (proj2 (Rltb_iff _ _) Hh), (proj2 (Z.ltb_lt _ _) Hn).
  unfold guard. cbn [bind]. cbv zeta.
  set (N := Z.max nx ny). set (t := rot * PI / 180). set (Xc := xOffset + IZR (N / 2)). set (Yc := yOffset + IZR (N / 2)).
  set (xp := fun k => xp0 (/ 2 * width) k * cos t - yp0 (/ 2 * height) k * sin t + Xc).
  set (yp := fun k => xp0 (/ 2 * width) k * sin t + yp0 (/ 2 * height) k * cos t + Yc).
  destruct (raster_rect width height t Xc Yc Hw Hh) as (cv & C1 & C2 & C3 & C4). fold xp yp in C2, C3, C4. cbv zeta in C4.
  set (imin := if (ZnearestE (min4 yp) <? 0)%Z then 0%Z else ZnearestE (min4 yp)).
  set (imax := if (N <=? ZnearestE (max4 yp) + 1)%Z then N else (ZnearestE (max4 yp) + 1)%Z).
  match goal with |- context [pad_crop ?A _ _] => set (arrN := A) end.
  assert (V : forall i j, (0 <= i < N)%Z -> (0 <= j < N)%Z ->
     at2 arrN i j = rsum (fun q => cv (sub_y ns i q) j) ns / IZR ns).
  { intros i j Hi Hj. unfold arrN. cbn [at2]. rewrite C4 by exact Hn.
    assert (n0 : IZR ns <> 0) by (apply IZR_lt in Hn; lra).
    destruct (Z.leb_spec 0 j); [|lia]. destruct (Z.ltb_spec j N); [|lia]. rewrite !andb_true_r.
    destruct (Z.leb_spec imin i) as [A|A]; cbn [andb].
    - assert (Z : forall x, (if (i <? imin + Z.of_nat (Z.to_nat (imax - imin)))%Z then x else 0) = if (i <? imax)%Z then x else 0).
      { intros x. destruct (Z.ltb_spec i (imin + Z.of_nat (Z.to_nat (imax - imin)))), (Z.ltb_spec i imax); try lia; reflexivity. }
      rewrite Z. destruct (Z.ltb_spec i imax) as [B|B]; [field; exact n0|].
      rewrite rsum_all_zero; [unfold Rdiv; ring|]. intros q Hq. apply C3.
      assert (B' : (ZnearestE (max4 yp) < i)%Z) by (unfold imax in B; destruct (Z.leb_spec N (ZnearestE (max4 yp) + 1)); lia).
      apply izr_lt in B'. pose proof (nearest_bounds (max4 yp)). pose proof (sub_y_range ns i q Hq). lra.
    - rewrite rsum_all_zero; [unfold Rdiv; ring|]. intros q Hq. apply C2.
      assert (A' : (i < ZnearestE (min4 yp))%Z) by (unfold imin in A; destruct (Z.ltb_spec (ZnearestE (min4 yp)) 0); lia).
      apply izr_lt in A'. pose proof (nearest_bounds (min4 yp)). pose proof (sub_y_range ns i q Hq). lra. }
  assert (W : wf arrN /\ nr arrN = N /\ nc arrN = N).
  { unfold arrN, wf; cbn [nr nc]; unfold N; lia. }
  destruct W as (W & Wr & Wc).
  destruct (pad_crop_ok arrN ny nx 0 W Hy Hx) as (out & E & Er & Ec & Ev). rewrite E. cbn [bind].
  exists (dark isDark out), (fun i j q => cv (sub_y ns (i - ny / 2 + N / 2) q) (j - nx / 2 + N / 2)%Z).
  split; [reflexivity|]. split; [destruct isDark; exact Er|]. split; [destruct isDark; exact Ec|].
  intros i j Hi Hj. rewrite Wr, Wc in Ev.
  assert (Bi : (0 <= i - ny / 2 + N / 2 < N)%Z).
  { unfold N. pose proof (Z.div_mod (Z.max nx ny) 2 ltac:(lia)). pose proof (Z.mod_pos_bound (Z.max nx ny) 2 ltac:(lia)).
    pose proof (Z.div_mod ny 2 ltac:(lia)). pose proof (Z.mod_pos_bound ny 2 ltac:(lia)). lia. }
  assert (Bj : (0 <= j - nx / 2 + N / 2 < N)%Z).
  { unfold N. pose proof (Z.div_mod (Z.max nx ny) 2 ltac:(lia)). pose proof (Z.mod_pos_bound (Z.max nx ny) 2 ltac:(lia)).
    pose proof (Z.div_mod nx 2 ltac:(lia)). pose proof (Z.mod_pos_bound nx 2 ltac:(lia)). lia. }
  split.
  - intros q Hq. pose proof (C1 (sub_y ns (i - ny / 2 + N / 2) q) (j - nx / 2 + N / 2)%Z) as L.
    apply (length_where_shift _ _ _ _ (IZR (N / 2))) in L.
    replace (IZR (j - nx / 2 + N / 2) - / 2 - IZR (N / 2)) with (IZR (j - nx / 2) - / 2) in L by (rewrite plus_IZR; ring).
    replace (IZR (j - nx / 2 + N / 2) + / 2 - IZR (N / 2)) with (IZR (j - nx / 2) + / 2) in L by (rewrite plus_IZR; ring).
    eapply length_where_ext; [|exact L]. intros x. cbv beta. unfold Xc, Yc, sub_y. rewrite plus_IZR.
    replace (x + IZR (N / 2) - (xOffset + IZR (N / 2))) with (x - xOffset) by ring.
    replace (IZR (i - ny / 2) + IZR (N / 2) - / 2 + (/ 2 + IZR q) / IZR ns - (yOffset + IZR (N / 2)))
      with (IZR (i - ny / 2) - / 2 + (IZR q + / 2) / IZR ns - yOffset); [reflexivity|]. unfold Rdiv; ring.
  - cbv zeta. assert (G : at2 out i j = rsum (fun q => cv (sub_y ns (i - ny / 2 + N / 2) q) (j - nx / 2 + N / 2)%Z) ns / IZR ns).
    { rewrite (Ev i j Hi Hj).
      replace (in_arrb arrN (i - ny / 2 + N / 2) (j - nx / 2 + N / 2)) with true; [apply V; assumption|].
      symmetry. unfold in_arrb. rewrite Wr, Wc. rewrite !andb_true_iff, !Z.leb_le, !Z.ltb_lt. lia. }
    unfold dark. destruct isDark; [unfold amap; cbn [at2]; rewrite G; reflexivity|exact G].
Qed.
Lemma length_where_mono (P Q : R -> Prop) p q l l' : (forall x, P x -> Q x) ->
  length_where P p q l -> length_where Q p q l' -> l <= l'.
Proof.
  intros PQ (u & v & A & B & -> & F & G) (u' & v' & A' & B' & -> & F' & G').
  destruct (Req_dec u v) as [E|Ne]; [lra|].
  assert (K : forall x, u < x < v -> u' <= x <= v') by (intros x Hx; apply F'; [lra|]; apply PQ, G, Hx).
  assert (u' <= u).
  { destruct (Rle_lt_dec u' u); [assumption|]. exfalso.
    pose proof (Rmin_l v u'). pose proof (Rmin_r v u'). assert (u < Rmin v u') by (apply Rmin_glb_lt; lra).
    pose proof (K ((u + Rmin v u') / 2) ltac:(lra)). lra. }
  assert (v <= v').
  { destruct (Rle_lt_dec v v'); [assumption|]. exfalso.
    pose proof (Rmax_l u v'). pose proof (Rmax_r u v'). assert (Rmax u v' < v) by (apply Rmax_lub_lt; lra).
    pose proof (K ((v + Rmax u v') / 2) ltac:(lra)). lra. }
  lra.
Qed.
Lemma length_where_unique P p q l l' : length_where P p q l -> length_where P p q l' -> l = l'.
Proof. intros A B. apply Rle_antisym; eapply length_where_mono; eauto. Qed.
Lemma rect_proper_inv nx ny width height xOffset yOffset rot ns isDark out :
  rect_proper nx ny width height xOffset yOffset rot ns isDark = Ok out ->
  (0 < nx)%Z /\ (0 < ny)%Z /\ 0 < width /\ 0 < height /\ (0 < ns)%Z.
Proof.
  unfold rect_proper, guard. intros H.
  destruct (Z.ltb_spec 0 nx); [|discriminate]. destruct (Z.ltb_spec 0 ny); [|discriminate].
  destruct (Rltb 0 width) eqn:W; [|discriminate]. destruct (Rltb 0 height) eqn:K; [|discriminate].
  destruct (Z.ltb_spec 0 ns); [|discriminate]. apply Rltb_iff in W, K. auto.
Qed.
Lemma rect_proper_seg nx ny width height xOffset yOffset rot ns isDark out :
  rect_proper nx ny width height xOffset yOffset rot ns isDark = Ok out ->
  nr out = ny /\ nc out = nx /\ (0 < ns)%Z /\ exists seg, forall i j, (0 <= i < ny)%Z -> (0 <= j < nx)%Z ->
  (forall q, (0 <= q < ns)%Z ->
   length_where (fun x => in_rotated_rect width height (rot * PI / 180) (x - xOffset)
                            ((IZR (i - ny / 2) - / 2 + (IZR q + / 2) / IZR ns) - yOffset))
     (IZR (j - nx / 2) - / 2) (IZR (j - nx / 2) + / 2) (seg i j q)) /\
  at2 out i j = (let m := rsum (seg i j) ns / IZR ns in if isDark then 1 - m else m).
Proof.
  intros H. destruct (rect_proper_inv _ _ _ _ _ _ _ _ _ _ H) as (A & B & C & D & E).
  destruct (rect_proper_ok nx ny width height xOffset yOffset rot ns isDark A B C D E) as (o & seg & G & Gr & Gc & Gv).
  rewrite H in G. injection G as ->. repeat split; auto. exists seg. exact Gv.
Qed.
Lemma mean_bounds f n u v : (0 < n)%Z -> (forall q, (0 <= q < n)%Z -> u <= f q <= v) -> u <= rsum f n / IZR n <= v.
Proof.
  intros Hn H. assert (0 < IZR n) by (apply IZR_lt in Hn; exact Hn).
  assert (IZR n * u <= rsum f n). { rewrite <- (rsum_const u n) by lia. apply rsum_le. intros. apply H. lia. }
  assert (rsum f n <= IZR n * v). { rewrite <- (rsum_const v n) by lia. apply rsum_le. intros. apply H. lia. }
  split; [apply le_div|apply div_le]; lra.
Qed.
Lemma rect_proper_range nx ny width height xOffset yOffset rot ns isDark out :
  rect_proper nx ny width height xOffset yOffset rot ns isDark = Ok out -> forall i j, (0 <= i < ny)%Z -> (0 <= j < nx)%Z ->
  0 <= at2 out i j <= 1.
Proof.
  intros H i j Hi Hj. destruct (rect_proper_seg _ _ _ _ _ _ _ _ _ _ H) as (_ & _ & Hn & seg & V).
  destruct (V i j Hi Hj) as [L ->]. cbv zeta.
  assert (0 <= rsum (seg i j) ns / IZR ns <= 1); [|destruct isDark; lra].
  apply mean_bounds; [exact Hn|]. intros q Hq. pose proof (length_where_range _ _ _ _ (L q Hq)). lra.
Qed.
Lemma rect_proper_complement nx ny width height xOffset yOffset rot ns m m' :
  rect_proper nx ny width height xOffset yOffset rot ns false = Ok m ->
  rect_proper nx ny width height xOffset yOffset rot ns true = Ok m' -> aeq m' (amap (fun v => 1 - v) m).
Proof.
  intros H H'. destruct (rect_proper_seg _ _ _ _ _ _ _ _ _ _ H) as (A & B & Hn & seg & V).
  destruct (rect_proper_seg _ _ _ _ _ _ _ _ _ _ H') as (A' & B' & _ & seg' & V').
  split; [cbn; congruence|]. split; [cbn; congruence|]. intros i j [Hi Hj]. rewrite A', B' in *.
  cbn [amap at2]. destruct (V i j Hi Hj) as [L ->]. destruct (V' i j Hi Hj) as [L' ->]. cbv zeta.
  rewrite (rsum_ext (seg' i j) (seg i j)); [reflexivity|]. intros q Hq. eapply length_where_unique; eauto.
Qed.
Lemma rect_proper_mono nx ny w h w' h' xOffset yOffset rot ns m m' : w <= w' -> h <= h' ->
  rect_proper nx ny w h xOffset yOffset rot ns false = Ok m -> rect_proper nx ny w' h' xOffset yOffset rot ns false = Ok m' ->
  forall i j, (0 <= i < ny)%Z -> (0 <= j < nx)%Z -> at2 m i j <= at2 m' i j.
Proof.
  intros Hw Hh H H' i j Hi Hj. destruct (rect_proper_seg _ _ _ _ _ _ _ _ _ _ H) as (A & B & Hn & seg & V).
  destruct (rect_proper_seg _ _ _ _ _ _ _ _ _ _ H') as (A' & B' & _ & seg' & V').
  destruct (V i j Hi Hj) as [L ->]. destruct (V' i j Hi Hj) as [L' ->]. cbv zeta.
  apply Rmult_le_compat_r; [apply Rlt_le, Rinv_0_lt_compat; apply IZR_lt in Hn; exact Hn|].
  apply rsum_le. intros q Hq. eapply length_where_mono; [|apply L; auto|apply L'; auto].
  intros x. unfold in_rotated_rect. intros [U1 U2]. split; lra.
Qed.
Lemma rect_proper_inside nx ny w h xOffset yOffset rot ns m i j :
  rect_proper nx ny w h xOffset yOffset rot ns false = Ok m -> (0 <= i < ny)%Z -> (0 <= j < nx)%Z ->
  let inside x y := in_rotated_rect w h (rot * PI / 180) (x - xOffset) (y - yOffset) in
  let in_pixel x y := Rabs (x - IZR (j - nx / 2)) < / 2 /\ Rabs (y - IZR (i - ny / 2)) < / 2 in
  ((forall x y, in_pixel x y -> inside x y) -> at2 m i j = 1) /\
  ((forall x y, in_pixel x y -> ~ inside x y) -> at2 m i j = 0).
Proof.
  intros H Hi Hj inside in_pixel. destruct (rect_proper_seg _ _ _ _ _ _ _ _ _ _ H) as (_ & _ & Hn & seg & V).
  destruct (V i j Hi Hj) as [L ->]. cbv zeta.
  assert (K : forall q x, (0 <= q < ns)%Z -> IZR (j - nx / 2) - / 2 < x < IZR (j - nx / 2) + / 2 ->
     in_pixel x (IZR (i - ny / 2) - / 2 + (IZR q + / 2) / IZR ns)).
  { intros q x Hq Hx. split; apply Rabs_def1; try lra; pose proof (sub_y_range ns (i - ny / 2) q Hq) as G; unfold sub_y in G;
    rewrite (Rplus_comm (IZR q)); lra. }
  split; intros A.
  - assert (1 <= rsum (seg i j) ns / IZR ns <= 1); [|lra].
    apply mean_bounds; [exact Hn|]. intros q Hq. pose proof (length_where_range _ _ _ _ (L q Hq)). split; [|lra].
    + destruct (L q Hq) as (u & v & U1 & U2 & U3 & U4 & _). rewrite U3.
      set (p := IZR (j - nx / 2)) in *.
      assert (forall x, p - / 2 < x < p + / 2 -> u <= x <= v).
      { intros x Hx. apply U4; [exact Hx|]. apply A, K; assumption. }
      assert (u <= p - / 2). { destruct (Rle_lt_dec u (p - / 2)); [assumption|]. exfalso.
        pose proof (Rmin_l u (p + / 2)). pose proof (Rmin_r u (p + / 2)). assert (p - / 2 < Rmin u (p + / 2)) by (apply Rmin_glb_lt; lra).
        pose proof (H1 ((p - / 2 + Rmin u (p + / 2)) / 2) ltac:(lra)). lra. }
      assert (p + / 2 <= v). { destruct (Rle_lt_dec (p + / 2) v); [assumption|]. exfalso.
        pose proof (Rmax_l v (p - / 2)). pose proof (Rmax_r v (p - / 2)). assert (Rmax v (p - / 2) < p + / 2) by (apply Rmax_lub_lt; lra).
        pose proof (H1 ((p + / 2 + Rmax v (p - / 2)) / 2) ltac:(lra)). lra. }
      lra.
  - rewrite rsum_all_zero; [unfold Rdiv; ring|]. intros q Hq. destruct (L q Hq) as (u & v & U1 & U2 & U3 & _ & U5). rewrite U3.
    destruct (Req_dec u v) as [E|Ne]; [lra|]. exfalso. apply (A ((u + v) / 2) (IZR (i - ny / 2) - / 2 + (IZR q + / 2) / IZR ns)).
    + apply K; [assumption|lra].
    + apply U5. lra.
Qed.
Lemma rect_proper_err nx ny w h xOffset yOffset rot ns isDark :
  (nx <= 0)%Z \/ (ny <= 0)%Z \/ w <= 0 \/ h <= 0 \/ (ns <= 0)%Z ->
  rect_proper nx ny w h xOffset yOffset rot ns isDark = Err TypeError.
Proof.
  intros H. unfold rect_proper, guard.
  destruct (Z.ltb_spec 0 nx); [|reflexivity]. destruct (Z.ltb_spec 0 ny); [|reflexivity].
  destruct (Rltb 0 w) eqn:W; [|reflexivity]. destruct (Rltb 0 h) eqn:K; [|reflexivity].
  destruct (Z.ltb_spec 0 ns); [|reflexivity]. apply Rltb_iff in W, K. exfalso. intuition (lia || lra).
Qed.
