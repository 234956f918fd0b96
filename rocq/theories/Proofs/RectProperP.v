(** Scan conversion of a rotated rectangle: geometry of the chords. *)
From Coq Require Import ZArith Bool List Reals Lra Lia Psatz.
From Flocq Require Import Core.Raux Core.Generic_fmt Core.Round_NE.
From Verif.Base Require Import Py Arr Sums.
From Verif.Model Require Import Fits PadCrop Shapes RectProper.
From Verif.Spec Require Import RectProperSpec.
From Verif.Proofs Require Import PadCropP FitsP.
Import ListNotations.
Open Scope R_scope.

Lemma eqR_true x y : x = y -> eqR x y = true.
Proof. intros ->. unfold eqR. destruct (Req_EM_T y y); congruence. Qed.
Lemma eqR_false x y : x <> y -> eqR x y = false.
Proof. intros H. unfold eqR. destruct (Req_EM_T x y); congruence. Qed.
Lemma Rmin_le_l x y : x <= y -> Rmin x y = x. Proof. apply Rmin_left. Qed.

(** ** The first corner *)
Lemma min4_is f k : (0 <= k <= 3)%Z -> (forall j, (0 <= j <= 3)%Z -> f k <= f j) -> min4 f = f k.
Proof.
  intros Hk H. unfold min4.
  pose proof (H 0%Z ltac:(lia)). pose proof (H 1%Z ltac:(lia)). pose proof (H 2%Z ltac:(lia)). pose proof (H 3%Z ltac:(lia)).
  assert (C : k = 0%Z \/ k = 1%Z \/ k = 2%Z \/ k = 3%Z) by lia.
  destruct C as [->|[->|[->| ->]]]; unfold Rmin; repeat destruct Rle_dec; lra.
Qed.
Lemma max4_is f k : (0 <= k <= 3)%Z -> (forall j, (0 <= j <= 3)%Z -> f j <= f k) -> max4 f = f k.
Proof.
  intros Hk H. unfold max4.
  pose proof (H 0%Z ltac:(lia)). pose proof (H 1%Z ltac:(lia)). pose proof (H 2%Z ltac:(lia)). pose proof (H 3%Z ltac:(lia)).
  assert (C : k = 0%Z \/ k = 1%Z \/ k = 2%Z \/ k = 3%Z) by lia.
  destruct C as [->|[->|[->| ->]]]; unfold Rmax; repeat destruct Rle_dec; lra.
Qed.
Lemma first_corner_is xp yp k : (0 <= k <= 3)%Z -> (forall j, (0 <= j <= 3)%Z -> yp k <= yp j) ->
  (forall j, (0 <= j <= 3)%Z -> j <> k -> yp j = yp k -> xp k < xp j) -> first_corner xp yp = k.
Proof.
  intros Hk Hmin Hx. unfold first_corner. rewrite (min4_is yp k Hk Hmin).
  assert (E : forall j, (0 <= j <= 3)%Z -> j <> k -> eqR (yp j) (yp k) = true -> xp k < xp j).
  { intros j Hj Hn E. apply Hx; auto. unfold eqR in E. destruct Req_EM_T; congruence. }
  assert (C : k = 0%Z \/ k = 1%Z \/ k = 2%Z \/ k = 3%Z) by lia.
  pose proof (E 0%Z ltac:(lia)) as E0. pose proof (E 1%Z ltac:(lia)) as E1.
  pose proof (E 2%Z ltac:(lia)) as E2. pose proof (E 3%Z ltac:(lia)) as E3.
  cbn [filter].
  destruct C as [->|[->|[->| ->]]];
  rewrite (eqR_true _ _ (eq_refl (yp _)));
  repeat match goal with |- context [eqR (yp ?j) (yp ?k)] => destruct (eqR (yp j) (yp k)) eqn:? end;
  repeat match goal with H : ?j <> ?j -> _ |- _ => clear H
                       | H : ?j <> ?k -> true = true -> _ |- _ => specialize (H ltac:(lia) eq_refl)
                       | H : ?j <> ?k -> false = true -> _ |- _ => clear H end;
  cbn [hd map fold_right filter];
  repeat match goal with
    | |- context [Rmin ?u ?v] => first [rewrite (Rmin_left u v) by (repeat apply Rmin_glb; lra)
                                      | rewrite (Rmin_right u v) by lra] end;
  repeat match goal with
    | |- context [eqR ?u ?v] => first [rewrite (eqR_true u v) by reflexivity | rewrite (eqR_false u v) by lra] end;
  reflexivity.
Qed.

(** ** One line of subpixels *)
Definition overlap (l r : R) (j : Z) : R := Rmax 0 (Rmin r (IZR j + / 2) - Rmax l (IZR j - / 2)).
Lemma nearest_bounds x : x - / 2 <= IZR (ZnearestE x) <= x + / 2.
Proof. pose proof (Znearest_half (fun x => negb (Z.even x)) x) as H. apply Rabs_le_inv in H. lra. Qed.
Ltac bb := repeat match goal with
  | |- context [Z.eqb ?a ?b] => destruct (Z.eqb_spec a b); try (exfalso; lia)
  | |- context [Z.leb ?a ?b] => destruct (Z.leb_spec a b); try (exfalso; lia)
  | |- context [Z.ltb ?a ?b] => destruct (Z.ltb_spec a b); try (exfalso; lia) end; cbn beta iota delta [negb andb orb].
Lemma izr_lt a b : (a < b)%Z -> IZR a + 1 <= IZR b.
Proof. intros. rewrite <- (plus_IZR a 1). apply IZR_le. lia. Qed.
Lemma overlap_cases l r j xl xr : l <= r -> xl = ZnearestE l -> xr = ZnearestE r ->
  overlap l r j =
    if (j <? xl)%Z then 0 else if (xr <? j)%Z then 0
    else if (xl =? xr)%Z then r - l
    else if (j =? xl)%Z then IZR xl + / 2 - l else if (j =? xr)%Z then r - (IZR xr - / 2) else 1.
Proof.
  intros H -> ->. pose proof (nearest_bounds l) as A. pose proof (nearest_bounds r) as B. unfold overlap.
  destruct (Z.ltb_spec j (ZnearestE l)) as [C|C]; [apply izr_lt in C|].
  { unfold Rmax, Rmin. repeat destruct Rle_dec; lra. }
  destruct (Z.ltb_spec (ZnearestE r) j) as [D|D]; [apply izr_lt in D|].
  { unfold Rmax, Rmin. repeat destruct Rle_dec; lra. }
  destruct (Z.eqb_spec (ZnearestE l) (ZnearestE r)) as [E|E].
  { rewrite E in *. assert (j = ZnearestE r) as -> by lia. unfold Rmax, Rmin. repeat destruct Rle_dec; lra. }
  destruct (Z.eqb_spec j (ZnearestE l)) as [F|F].
  { subst j. assert (G : (ZnearestE l < ZnearestE r)%Z) by lia. apply izr_lt in G.
    unfold Rmax, Rmin. repeat destruct Rle_dec; lra. }
  destruct (Z.eqb_spec j (ZnearestE r)) as [G|G].
  { subst j. assert (G : (ZnearestE l < ZnearestE r)%Z) by lia. apply izr_lt in G.
    unfold Rmax, Rmin. repeat destruct Rle_dec; lra. }
  assert (U : (ZnearestE l < j)%Z) by lia. assert (V : (j < ZnearestE r)%Z) by lia. apply izr_lt in U, V.
  unfold Rmax, Rmin. repeat destruct Rle_dec; lra.
Qed.
Lemma nearest_le l r : l <= r -> (ZnearestE l <= ZnearestE r)%Z.
Proof. intros H. apply (@Zrnd_le _ (valid_rnd_N _)). exact H. Qed.
Lemma add_at_eq img r c0 c1 v i j :
  add_at img r c0 c1 v i j = img i j + (if (i =? r)%Z && (c0 <=? j)%Z && (j <? c1)%Z then v else 0).
Proof. unfold add_at. destruct ((i =? r)%Z && (c0 <=? j)%Z && (j <? c1)%Z); lra. Qed.
Lemma if_app (b : bool) (f g : Z -> Z -> R) i j : (if b then f else g) i j = if b then f i j else g i j.
Proof. destruct b; reflexivity. Qed.
Lemma paint_at ngrid mag ypix l r img i j : l <= r ->
  paint ngrid mag ypix l r img i j =
  img i j + (if (i =? ypix)%Z && (0 <=? j)%Z && (j <? ngrid)%Z then IZR mag * overlap l r j else 0).
Proof.
  intros H. rewrite (overlap_cases l r j _ _ H eq_refl eq_refl). pose proof (nearest_le l r H) as M.
  unfold paint.
  assert (A : forall u, (if (u <? 0)%Z then 0%Z else u) = Z.max 0 u) by (intros u; destruct (Z.ltb_spec u 0); lia).
  assert (B : forall u, (if (ngrid <? u)%Z then ngrid else u) = Z.min ngrid u) by (intros u; destruct (Z.ltb_spec ngrid u); lia).
  rewrite A, B. clear A B. set (xl := ZnearestE l) in *. set (xr := ZnearestE r) in *. clearbody xl xr.
  rewrite !if_app, !add_at_eq, !if_app, !add_at_eq, !if_app, !add_at_eq.
  destruct (Z.eqb_spec i ypix) as [_|_]; cbn [andb].
  2: { repeat match goal with |- context [if ?b then _ else _] => destruct b end; lra. }
  destruct (Z.eqb_spec xl xr) as [E|E]; cbn [negb].
  - subst xr. destruct (Z.ltb_spec j xl); [|destruct (Z.ltb_spec xl j)]; bb; lra.
  - destruct (Z.ltb_spec j xl); [bb; lra|]. destruct (Z.ltb_spec xr j); [bb; lra|].
    destruct (Z.eqb_spec j xl) as [->|]; [bb; lra|].
    destruct (Z.eqb_spec j xr) as [->|]; [bb; lra|].
    bb; lra.
Qed.
