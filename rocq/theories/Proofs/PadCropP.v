From Coq Require Import ZArith Bool List Reals Lia Lra.
From Flocq Require Import Core.
From Verif.Base Require Import Py Arr.
From Verif.Model Require Import PadCrop.
Import ListNotations.
Open Scope Z_scope.
Ltac Zify.zify_post_hook ::= Z.div_mod_to_equations.

(** Position of output index [i] in the input along one axis, aligning centre pixels. *)
Lemma pad_crop_ok {A} (a : arr A) h w fill : wf a -> 0 < h -> 0 < w ->
  exists out, pad_crop a [h; w] fill = Ok out /\ nr out = h /\ nc out = w /\
  forall i j, 0 <= i < h -> 0 <= j < w ->
    at2 out i j = if in_arrb a (i - h / 2 + nr a / 2) (j - w / 2 + nc a / 2)
                  then at2 a (i - h / 2 + nr a / 2) (j - w / 2 + nc a / 2) else fill.
Proof.
  intros [Wr Wc] Hh Hw. unfold pad_crop, guard.
  destruct (Z.ltb_spec 0 h); [|lia]. destruct (Z.ltb_spec 0 w); [|lia]. cbn [bind].
  set (xneg := Z.min (nc a / 2) (w / 2)). set (xpos := Z.min (nc a - nc a / 2) (w - w / 2)).
  set (yneg := Z.min (nr a / 2) (h / 2)). set (ypos := Z.min (nr a - nr a / 2) (h - h / 2)).
  assert (Rs : forall n lo hi, 0 <= lo -> lo <= hi -> hi <= n ->
             slice_lo n (Slice lo hi) = lo /\ slice_len n (Slice lo hi) = hi - lo).
  { intros n lo hi H1 H2 H3. unfold slice_lo, slice_len, slice_bound; cbn [s_start s_stop].
    destruct (Z.ltb_spec lo 0), (Z.ltb_spec hi 0); lia. }
  assert (0 <= yneg) by lia. assert (0 <= xneg) by lia.
  assert (0 <= ypos) by lia. assert (0 <= xpos) by lia.
  destruct (Rs (nr a) (nr a / 2 - yneg) (nr a / 2 + ypos)) as [L1 N1]; try lia.
  destruct (Rs (nc a) (nc a / 2 - xneg) (nc a / 2 + xpos)) as [L2 N2]; try lia.
  destruct (Rs h (h / 2 - yneg) (h / 2 + ypos)) as [L3 N3]; try lia.
  destruct (Rs w (w / 2 - xneg) (w / 2 + xpos)) as [L4 N4]; try lia.
  unfold set_slice, get_slice, afull; cbn [nr nc at2].
  rewrite L1, N1, L2, N2, L3, N3, L4, N4.
  replace (nr a / 2 + ypos - (nr a / 2 - yneg)) with (ypos + yneg) by lia.
  replace (nc a / 2 + xpos - (nc a / 2 - xneg)) with (xpos + xneg) by lia.
  replace (h / 2 + ypos - (h / 2 - yneg)) with (ypos + yneg) by lia.
  replace (w / 2 + xpos - (w / 2 - xneg)) with (xpos + xneg) by lia.
  unfold bc_ok. rewrite !Z.eqb_refl. cbn [orb andb].
  eexists; split; [reflexivity|]. cbn [nr nc at2]. split; [reflexivity|split; [reflexivity|]].
  intros i j Hi Hj. unfold in_arrb, bc_idx.
  destruct (Z.leb_spec (h / 2 - yneg) i), (Z.ltb_spec i (h / 2 - yneg + (ypos + yneg))),
    (Z.leb_spec (w / 2 - xneg) j), (Z.ltb_spec j (w / 2 - xneg + (xpos + xneg)));
  destruct (Z.leb_spec 0 (i - h / 2 + nr a / 2)), (Z.ltb_spec (i - h / 2 + nr a / 2) (nr a)),
    (Z.leb_spec 0 (j - w / 2 + nc a / 2)), (Z.ltb_spec (j - w / 2 + nc a / 2) (nc a));
  cbn [andb]; try reflexivity; try (exfalso; lia).
  destruct (Z.eqb_spec (ypos + yneg) 1), (Z.eqb_spec (xpos + xneg) 1); f_equal; lia.
Qed.

Lemma pad_crop_inv {A} (a : arr A) sz fill out : wf a -> pad_crop a sz fill = Ok out ->
  exists h w, sz = [h; w] /\ 0 < h /\ 0 < w /\ nr out = h /\ nc out = w /\
  forall i j, 0 <= i < h -> 0 <= j < w ->
    at2 out i j = if in_arrb a (i - h / 2 + nr a / 2) (j - w / 2 + nc a / 2)
                  then at2 a (i - h / 2 + nr a / 2) (j - w / 2 + nc a / 2) else fill.
Proof.
  intros W H. destruct sz as [|h [|w [|x l]]]; try discriminate.
  destruct (Z_lt_le_dec 0 h) as [Hh|Hh].
  2:{ unfold pad_crop, guard in H. destruct (Z.ltb_spec 0 h); [lia|discriminate]. }
  destruct (Z_lt_le_dec 0 w) as [Hw|Hw].
  2:{ unfold pad_crop, guard in H. destruct (Z.ltb_spec 0 h); [|lia].
      destruct (Z.ltb_spec 0 w); [lia|discriminate]. }
  destruct (pad_crop_ok a h w fill W Hh Hw) as (o & E & R1 & R2 & R3).
  rewrite E in H. injection H as <-. exists h, w. repeat split; auto.
Qed.

Lemma pad_crop_err {A} (a : arr A) sz fill e : pad_crop a sz fill = Err e -> wf a ->
  e = TypeError /\ ~ exists h w, sz = [h; w] /\ 0 < h /\ 0 < w.
Proof.
  intros H W. split.
  - destruct sz as [|h [|w [|x l]]]; cbn in H; try congruence.
    unfold guard in H.
    destruct (Z.ltb_spec 0 h); cbn in H; [|congruence].
    destruct (Z.ltb_spec 0 w); cbn [bind] in H; [|congruence].
    destruct (pad_crop_ok a h w fill W) as (o & E & _); try lia.
    unfold pad_crop, guard in E.
    destruct (Z.ltb_spec 0 h); [|lia]. destruct (Z.ltb_spec 0 w); [|lia]. cbn [bind] in E.
    congruence.
  - intros (h & w & -> & Hh & Hw). destruct (pad_crop_ok a h w fill W Hh Hw) as (o & E & _).
    congruence.
Qed.

(** Chaining. *)
Lemma pad_crop_chain_lemma {A} (a mid out direct : arr A) hm wm h w fill :
  wf a ->
  (Z.min (nr a) h <= hm) -> (Z.min (nc a) w <= wm) ->
  pad_crop a [hm; wm] fill = Ok mid -> pad_crop mid [h; w] fill = Ok out ->
  pad_crop a [h; w] fill = Ok direct -> aeq out direct.
Proof.
  intros W Mh Mw E1 E2 E3.
  destruct (pad_crop_inv _ _ _ _ W E1) as (x1 & y1 & Q1 & P1 & P1' & R1 & C1 & S1).
  injection Q1 as <- <-.
  assert (W' : wf mid) by (split; lia).
  destruct (pad_crop_inv _ _ _ _ W' E2) as (x2 & y2 & Q2 & P2 & P2' & R2 & C2 & S2).
  injection Q2 as <- <-.
  destruct (pad_crop_inv _ _ _ _ W E3) as (x3 & y3 & Q3 & P3 & P3' & R3 & C3 & S3).
  injection Q3 as <- <-.
  split; [congruence|split; [congruence|]]. intros i j [Hi Hj].
  rewrite R2 in Hi. rewrite C2 in Hj. rewrite S2, S3 by lia. rewrite R1, C1.
  destruct (in_arrb mid (i - h / 2 + hm / 2) (j - w / 2 + wm / 2)) eqn:Em.
  - apply in_arrb_spec in Em. destruct Em as [Em1 Em2]. rewrite R1 in Em1. rewrite C1 in Em2.
    rewrite S1 by lia.
    replace (i - h / 2 + hm / 2 - hm / 2 + nr a / 2) with (i - h / 2 + nr a / 2) by ring.
    replace (j - w / 2 + wm / 2 - wm / 2 + nc a / 2) with (j - w / 2 + nc a / 2) by ring.
    reflexivity.
  - apply in_arrb_false in Em. destruct (in_arrb a _ _) eqn:Ea; [|reflexivity]. exfalso.
    apply in_arrb_spec in Ea. destruct Ea as [Ea1 Ea2]. apply Em. unfold in_arr.
    rewrite R1, C1. destruct W. lia.
Qed.

(** The exact necessity: what a chain computes in general. *)
Lemma pad_crop_same_lemma {A} (a out : arr A) fill : wf a ->
  pad_crop a [nr a; nc a] fill = Ok out -> aeq out a.
Proof.
  intros W E. destruct (pad_crop_inv _ _ _ _ W E) as (h & w & Q & P1 & P2 & R & C & S).
  injection Q as <- <-. split; [auto|split; [auto|]]. intros i j [Hi Hj].
  rewrite R in Hi; rewrite C in Hj. rewrite S by lia.
  replace (i - nr a / 2 + nr a / 2) with i by ring.
  replace (j - nc a / 2 + nc a / 2) with j by ring.
  destruct (in_arrb a i j) eqn:Ea; auto. apply in_arrb_false in Ea. unfold in_arr in Ea. lia.
Qed.

Lemma pad_crop_roundtrip_lemma {A} (a big back : arr A) h w fill fill' : wf a ->
  nr a <= h -> nc a <= w ->
  pad_crop a [h; w] fill = Ok big -> pad_crop big [nr a; nc a] fill' = Ok back -> aeq back a.
Proof.
  intros W Hh Hw E1 E2.
  destruct (pad_crop_inv _ _ _ _ W E1) as (x1 & y1 & Q1 & P1 & P1' & R1 & C1 & S1).
  injection Q1 as <- <-.
  assert (W' : wf big) by (split; lia).
  destruct (pad_crop_inv _ _ _ _ W' E2) as (x2 & y2 & Q2 & P2 & P2' & R2 & C2 & S2).
  injection Q2 as <- <-.
  split; [auto|split; [auto|]]. intros i j [Hi Hj]. rewrite R2 in Hi. rewrite C2 in Hj.
  rewrite S2 by lia. rewrite R1, C1.
  assert (Em : in_arrb big (i - nr a / 2 + h / 2) (j - nc a / 2 + w / 2) = true).
  { apply in_arrb_spec. unfold in_arr. rewrite R1, C1. lia. }
  rewrite Em. rewrite S1 by lia.
  replace (i - nr a / 2 + h / 2 - h / 2 + nr a / 2) with i by ring.
  replace (j - nc a / 2 + w / 2 - w / 2 + nc a / 2) with j by ring.
  destruct (in_arrb a i j) eqn:Ea; auto. apply in_arrb_false in Ea. unfold in_arr in Ea. lia.
Qed.

(** ** offcenter_crop *)
Lemma Zceil_half n : Zceil (IZR n / 2) = (n + 1) / 2.
Proof.
  apply Zceil_imp. split.
  - assert (H : (IZR (2 * ((n + 1) / 2 - 1)) < IZR n)%R) by (apply IZR_lt; lia).
    rewrite mult_IZR in H. lra.
  - assert (H : (IZR n <= IZR (2 * ((n + 1) / 2)))%R) by (apply IZR_le; lia).
    rewrite mult_IZR in H. lra.
Qed.
Lemma Zceil_neg_half n : Zceil (- IZR n / 2) = - (n / 2).
Proof.
  replace (- IZR n / 2)%R with (IZR (- n) / 2)%R by (rewrite opp_IZR; reflexivity).
  rewrite Zceil_half. lia.
Qed.

Lemma offcenter_pad_bounds n n_in c : 0 < n -> 0 <= n_in ->
  0 <= offcenter_pad n n_in c /\
  0 <= c + offcenter_pad n n_in c - n / 2 /\
  c + offcenter_pad n n_in c + (n + 1) / 2 <= n_in + 2 * offcenter_pad n n_in c.
Proof.
  intros Hn Hi. unfold offcenter_pad. rewrite Zceil_half, Zceil_neg_half.
  destruct (Z.ltb_spec (- (n / 2) + c) 0), (Z.ltb_spec (n_in - 1) ((n + 1) / 2 + c)); lia.
Qed.

Lemma offcenter_crop_ok {A} (zero : A) (a : arr A) n cy cx : 0 < nr a -> 0 < nc a -> 0 < n ->
  exists out, offcenter_crop zero a n cy cx = Ok out /\ nr out = n /\ nc out = n /\
  forall i j, 0 <= i < n -> 0 <= j < n ->
    at2 out i j =
      (let r := ZnearestE cy - n / 2 + i in let c := ZnearestE cx - n / 2 + j in
       if in_arrb a r c then at2 a r c else zero).
Proof.
  intros Hr Hc Hn. unfold offcenter_crop, guard. destruct (Z.ltb_spec 0 n); [|lia]. cbn [bind].
  set (yc := ZnearestE cy). set (xc := ZnearestE cx).
  destruct (offcenter_pad_bounds n (nr a) yc) as (Y0 & Y1 & Y2); try lia.
  destruct (offcenter_pad_bounds n (nc a) xc) as (X0 & X1 & X2); try lia.
  set (yp := offcenter_pad n (nr a) yc) in *. set (xp := offcenter_pad n (nc a) xc) in *.
  assert (W : wf a) by (split; lia).
  destruct (pad_crop_ok a (nr a + 2 * yp) (nc a + 2 * xp) zero W) as (p & E & R & C & S); try lia.
  rewrite E. cbn [bind]. eexists; split; [reflexivity|].
  assert (Eb : forall c, c + n / 2 + (if n mod 2 =? 1 then 1 else 0) = c + (n + 1) / 2)
    by (intros; destruct (Z.eqb_spec (n mod 2) 1); lia).
  rewrite !Eb.
  assert (Rs : forall n lo hi, 0 <= lo -> lo <= hi -> hi <= n ->
             slice_lo n (Slice lo hi) = lo /\ slice_len n (Slice lo hi) = hi - lo).
  { intros m lo hi H1 H2 H3. unfold slice_lo, slice_len, slice_bound; cbn [s_start s_stop].
    destruct (Z.ltb_spec lo 0), (Z.ltb_spec hi 0); lia. }
  destruct (Rs (nr p) (yc + yp - n / 2) (yc + yp + (n + 1) / 2)) as [L1 N1]; try lia.
  destruct (Rs (nc p) (xc + xp - n / 2) (xc + xp + (n + 1) / 2)) as [L2 N2]; try lia.
  unfold get_slice. rewrite L1, N1, L2, N2. cbn [nr nc at2].
  split; [lia|split; [lia|]]. intros i j Hi Hj. rewrite S by lia. cbv zeta.
  replace (yc + yp - n / 2 + i - (nr a + 2 * yp) / 2 + nr a / 2) with (yc - n / 2 + i) by lia.
  replace (xc + xp - n / 2 + j - (nc a + 2 * xp) / 2 + nc a / 2) with (xc - n / 2 + j) by lia.
  reflexivity.
Qed.

(** ** combine, crop, get_crop_lower *)
Lemma combine_ok {A} (frame : arr (fnan A)) bp : nr bp = nr frame -> nc bp = nc frame ->
  exists out, combine frame bp = Ok out /\ nr out = nr frame /\ nc out = nc frame /\
  forall i j, in_arr frame i j ->
    (at2 bp i j = true -> at2 out i j = None) /\
    (at2 bp i j = false -> at2 out i j = at2 frame i j).
Proof.
  intros H1 H2. unfold combine, same_shape, guard. rewrite H1, H2, !Z.eqb_refl. cbn.
  eexists; split; [reflexivity|]. cbn. repeat split; intros ->; reflexivity.
Qed.
Lemma combine_bad {A} (frame : arr (fnan A)) bp : nr bp <> nr frame \/ nc bp <> nc frame ->
  combine frame bp = Err TypeError.
Proof.
  intros H. unfold combine, same_shape, guard.
  destruct (Z.eqb_spec (nr bp) (nr frame)), (Z.eqb_spec (nc bp) (nc frame)); cbn; auto; lia.
Qed.
Lemma combine_twice {A} (frame f1 f2 f12 : arr (fnan A)) b1 b2 :
  combine frame b1 = Ok f1 -> combine f1 b2 = Ok f2 ->
  combine frame (amap2 orb b1 b2) = Ok f12 -> aeq f2 f12.
Proof.
  assert (G : forall (f : arr (fnan A)) b g, combine f b = Ok g ->
     g = amap2 (fun (v : fnan A) (b : bool) => if b then None else v) f b).
  { intros f b g. unfold combine, guard. destruct (same_shape b f); cbn; congruence. }
  intros H1 H2 H3. apply G in H1. apply G in H2. apply G in H3. subst.
  repeat split. intros i j _. cbn. destruct (at2 b1 i j), (at2 b2 i j); reflexivity.
Qed.

Lemma crop_ok {A} (frame : arr (fnan A)) lr lc rw cw :
  0 <= lr < nr frame -> 0 <= lc < nc frame -> 0 < rw -> 0 < cw ->
  exists out, crop frame lr lc rw cw = Ok out /\ nr out = rw /\ nc out = cw /\
  forall i j, 0 <= i < rw -> 0 <= j < cw ->
    at2 out i j = if in_arrb frame (lr + i) (lc + j) then at2 frame (lr + i) (lc + j) else None.
Proof.
  intros Hr Hc Hrw Hcw. unfold crop, guard.
  destruct (Z.leb_spec 0 lr); [|lia]. destruct (Z.leb_spec 0 lc); [|lia].
  destruct (Z.ltb_spec 0 rw); [|lia]. destruct (Z.ltb_spec 0 cw); [|lia].
  destruct (Z.leb_spec (nr frame) lr); [lia|]. destruct (Z.leb_spec (nc frame) lc); [lia|].
  cbn [bind negb].
  assert (L : forall n l w, 0 <= l < n -> 0 < w ->
     slice_lo n (Slice l (l + w)) = l /\ slice_len n (Slice l (l + w)) = Z.min w (n - l)).
  { intros n l w Hl Hw. unfold slice_lo, slice_len, slice_bound; cbn [s_start s_stop].
    destruct (Z.ltb_spec l 0), (Z.ltb_spec (l + w) 0); lia. }
  destruct (L (nr frame) lr rw) as [L1 N1]; try lia.
  destruct (L (nc frame) lc cw) as [L2 N2]; try lia.
  unfold get_slice. rewrite L1, N1, L2, N2. cbn [nr nc].
  unfold set_slice, afull; cbn [nr nc at2].
  assert (L' : forall w m, 0 <= m <= w ->
     slice_lo w (Slice 0 m) = 0 /\ slice_len w (Slice 0 m) = m).
  { intros w m Hm. unfold slice_lo, slice_len, slice_bound; cbn [s_start s_stop].
    destruct (Z.ltb_spec 0 0), (Z.ltb_spec m 0); lia. }
  destruct (L' rw (Z.min rw (nr frame - lr))) as [L3 N3]; try lia.
  destruct (L' cw (Z.min cw (nc frame - lc))) as [L4 N4]; try lia.
  rewrite L3, N3, L4, N4. unfold bc_ok. rewrite !Z.eqb_refl. cbn [orb andb].
  eexists; split; [reflexivity|]. cbn [nr nc at2]. split; [auto|split; [auto|]].
  intros i j Hi Hj. unfold in_arrb, bc_idx.
  destruct (Z.leb_spec 0 i), (Z.ltb_spec i (0 + Z.min rw (nr frame - lr))),
    (Z.leb_spec 0 j), (Z.ltb_spec j (0 + Z.min cw (nc frame - lc)));
  destruct (Z.leb_spec 0 (lr + i)), (Z.ltb_spec (lr + i) (nr frame)),
    (Z.leb_spec 0 (lc + j)), (Z.ltb_spec (lc + j) (nc frame));
  cbn [andb]; try reflexivity; try (exfalso; lia).
  destruct (Z.eqb_spec (Z.min rw (nr frame - lr)) 1), (Z.eqb_spec (Z.min cw (nc frame - lc)) 1);
  f_equal; lia.
Qed.

Lemma crop_rejects {A} (frame : arr (fnan A)) lr lc rw cw : wf frame ->
  (lr < 0 \/ lc < 0 \/ rw <= 0 \/ cw <= 0 -> crop frame lr lc rw cw = Err TypeError) /\
  (0 <= lr -> 0 <= lc -> 0 < rw -> 0 < cw -> nr frame <= lr \/ nc frame <= lc ->
     crop frame lr lc rw cw = Err ValueError).
Proof.
  intros W. unfold crop, guard. split; intros.
  - destruct (Z.leb_spec 0 lr); cbn [bind]; auto. destruct (Z.leb_spec 0 lc); cbn [bind]; auto.
    destruct (Z.ltb_spec 0 rw); cbn [bind]; auto. destruct (Z.ltb_spec 0 cw); cbn [bind]; auto. lia.
  - destruct (Z.leb_spec 0 lr); [|lia]. destruct (Z.leb_spec 0 lc); [|lia].
    destruct (Z.ltb_spec 0 rw); [|lia]. destruct (Z.ltb_spec 0 cw); [|lia]. cbn [bind].
    destruct (Z.leb_spec (nr frame) lr); cbn [bind negb]; auto.
    destruct (Z.leb_spec (nc frame) lc); cbn [bind negb]; auto. lia.
Qed.

Lemma crop_inv {A} (frame out : arr (fnan A)) lr lc rw cw : wf frame ->
  crop frame lr lc rw cw = Ok out ->
  0 <= lr < nr frame /\ 0 <= lc < nc frame /\ 0 < rw /\ 0 < cw /\ nr out = rw /\ nc out = cw /\
  forall i j, 0 <= i < rw -> 0 <= j < cw ->
    at2 out i j = if in_arrb frame (lr + i) (lc + j) then at2 frame (lr + i) (lc + j) else None.
Proof.
  intros W E. destruct (crop_rejects frame lr lc rw cw W) as [K1 K2].
  assert (G : 0 <= lr /\ 0 <= lc /\ 0 < rw /\ 0 < cw).
  { destruct (Z_lt_le_dec lr 0); [rewrite K1 in E by lia; discriminate|].
    destruct (Z_lt_le_dec lc 0); [rewrite K1 in E by lia; discriminate|].
    destruct (Z_le_gt_dec rw 0); [rewrite K1 in E by lia; discriminate|].
    destruct (Z_le_gt_dec cw 0); [rewrite K1 in E by lia; discriminate|]. lia. }
  destruct G as (G1 & G2 & G3 & G4).
  assert (G5 : lr < nr frame)
    by (destruct (Z_lt_le_dec lr (nr frame)); auto; rewrite K2 in E by lia; discriminate).
  assert (G6 : lc < nc frame)
    by (destruct (Z_lt_le_dec lc (nc frame)); auto; rewrite K2 in E by lia; discriminate).
  destruct (crop_ok frame lr lc rw cw) as (o & E' & R & C & S); try lia.
  rewrite E' in E. injection E as <-. repeat split; auto; lia.
Qed.

Lemma crop_crop_lemma {A} (frame c1 c2 d : arr (fnan A)) r1 q1 h1 w1 r2 q2 h2 w2 : wf frame ->
  crop frame r1 q1 h1 w1 = Ok c1 -> crop c1 r2 q2 h2 w2 = Ok c2 ->
  crop frame (r1 + r2) (q1 + q2) h2 w2 = Ok d ->
  nr c2 = nr d /\ nc c2 = nc d /\
  forall i j, 0 <= i < h2 -> 0 <= j < w2 ->
    at2 c2 i j = if (r2 + i <? h1) && (q2 + j <? w1) then at2 d i j else None.
Proof.
  intros W E1 E2 E3.
  destruct (crop_inv _ _ _ _ _ _ W E1) as (A1 & A2 & A3 & A4 & A5 & A6 & S1).
  assert (W1 : wf c1) by (split; lia).
  destruct (crop_inv _ _ _ _ _ _ W1 E2) as (B1 & B2 & B3 & B4 & B5 & B6 & S2).
  destruct (crop_inv _ _ _ _ _ _ W E3) as (D1 & D2 & D3 & D4 & D5 & D6 & S3).
  split; [congruence|split; [congruence|]]. intros i j Hi Hj.
  rewrite S2 by lia. unfold in_arrb at 1. rewrite A5, A6.
  destruct (Z.leb_spec 0 (r2 + i)); [|lia]. destruct (Z.leb_spec 0 (q2 + j)); [|lia].
  destruct (Z.ltb_spec (r2 + i) h1), (Z.ltb_spec (q2 + j) w1); cbn [andb]; try reflexivity.
  rewrite S1, S3 by lia. rewrite !Z.add_assoc. reflexivity.
Qed.

Lemma get_crop_lower_ok rc cc rw cw bound : 0 <= rc -> 0 <= cc -> 0 < rw -> 0 < cw ->
  get_crop_lower rc cc rw cw bound =
    Ok (if bound then (Z.max (rc - rw / 2) 0, Z.max (cc - cw / 2) 0)
        else (rc - rw / 2, cc - cw / 2)).
Proof.
  intros. unfold get_crop_lower, guard.
  destruct (Z.leb_spec 0 rc); [|lia]. destruct (Z.leb_spec 0 cc); [|lia].
  destruct (Z.ltb_spec 0 rw); [|lia]. destruct (Z.ltb_spec 0 cw); [|lia]. reflexivity.
Qed.
Lemma get_crop_lower_err rc cc rw cw bound : rc < 0 \/ cc < 0 \/ rw <= 0 \/ cw <= 0 ->
  get_crop_lower rc cc rw cw bound = Err TypeError.
Proof.
  intros. unfold get_crop_lower, guard.
  destruct (Z.leb_spec 0 rc); cbn; auto. destruct (Z.leb_spec 0 cc); cbn; auto.
  destruct (Z.ltb_spec 0 rw); cbn; auto. destruct (Z.ltb_spec 0 cw); cbn; auto. lia.
Qed.

(** When the intermediate size is too small on some axis, chaining loses pixels. *)
Lemma pad_crop_chain_necessary h0 w0 hm wm h w :
  0 < h0 -> 0 < w0 -> 0 < hm -> 0 < wm -> 0 < h -> 0 < w ->
  hm < Z.min h0 h \/ wm < Z.min w0 w ->
  exists (a mid out direct : arr bool), nr a = h0 /\ nc a = w0 /\
    pad_crop a [hm; wm] false = Ok mid /\ pad_crop mid [h; w] false = Ok out /\
    pad_crop a [h; w] false = Ok direct /\ ~ aeq out direct.
Proof.
  intros P0 P1 P2 P3 P4 P5 Hlt.
  set (a := afull h0 w0 true).
  assert (W : wf a) by (split; cbn; lia).
  destruct (pad_crop_ok a hm wm false W P2 P3) as (mid & E1 & R1 & C1 & S1).
  assert (W' : wf mid) by (split; lia).
  destruct (pad_crop_ok mid h w false W' P4 P5) as (out & E2 & R2 & C2 & S2).
  destruct (pad_crop_ok a h w false W P4 P5) as (d & E3 & R3 & C3 & S3).
  exists a, mid, out, d. repeat split; auto. intros (_ & _ & Eq).
  assert (Big : forall i j, 0 <= i < h -> 0 <= j < w ->
     in_arr a (i - h / 2 + h0 / 2) (j - w / 2 + w0 / 2) ->
     ~ in_arr mid (i - h / 2 + hm / 2) (j - w / 2 + wm / 2) -> False).
  { intros i j Hi Hj Ha Hm. specialize (Eq i j ltac:(unfold in_arr; lia)).
    rewrite S2, S3 in Eq by lia. rewrite R1, C1 in Eq. cbn [nr nc a afull] in Eq.
    apply in_arrb_false in Hm. rewrite Hm in Eq. apply in_arrb_spec in Ha. rewrite Ha in Eq.
    discriminate. }
  destruct Hlt as [Hlt|Hlt].
  - apply (Big (h / 2 + (if Z.even (Z.min h0 h) then - (Z.min h0 h / 2) else Z.min h0 h / 2)) (w / 2));
      unfold in_arr; rewrite ?R1, ?C1; cbn [nr nc a afull];
      destruct (Z.even (Z.min h0 h)) eqn:Ev;
      try (apply Z.even_spec in Ev; destruct Ev as [q Ev]);
      try (rewrite <- Z.negb_odd in Ev; apply negb_false_iff in Ev; apply Z.odd_spec in Ev;
           destruct Ev as [q Ev]); lia.
  - apply (Big (h / 2) (w / 2 + (if Z.even (Z.min w0 w) then - (Z.min w0 w / 2) else Z.min w0 w / 2)));
      unfold in_arr; rewrite ?R1, ?C1; cbn [nr nc a afull];
      destruct (Z.even (Z.min w0 w)) eqn:Ev;
      try (apply Z.even_spec in Ev; destruct Ev as [q Ev]);
      try (rewrite <- Z.negb_odd in Ev; apply negb_false_iff in Ev; apply Z.odd_spec in Ev;
           destruct Ev as [q Ev]); lia.
Qed.

Lemma crop_centre_lemma {A} (frame out : arr (fnan A)) rc cc rw cw bound lr lc : wf frame ->
  get_crop_lower rc cc rw cw bound = Ok (lr, lc) -> rw / 2 <= rc -> cw / 2 <= cc ->
  rc < nr frame -> cc < nc frame ->
  crop frame lr lc rw cw = Ok out ->
  at2 out (rw / 2) (cw / 2) = at2 frame rc cc.
Proof.
  intros W G H1 H2 H3 H4 E.
  destruct (crop_inv _ _ _ _ _ _ W E) as (A1 & A2 & A3 & A4 & A5 & A6 & S).
  assert (Hrc : 0 <= rc) by lia. assert (Hcc : 0 <= cc) by lia.
  rewrite (get_crop_lower_ok rc cc rw cw bound Hrc Hcc A3 A4) in G.
  assert (Hlr : lr = rc - rw / 2 /\ lc = cc - cw / 2).
  { destruct bound; injection G as <- <-; lia. }
  destruct Hlr as [-> ->]. rewrite S by lia.
  replace (rc - rw / 2 + rw / 2) with rc by ring. replace (cc - cw / 2 + cw / 2) with cc by ring.
  destruct (in_arrb frame rc cc) eqn:Ef; auto.
  apply in_arrb_false in Ef. unfold in_arr in Ef. lia.
Qed.
