From Coq Require Import ZArith Bool List Reals Lra Lia.
From Coquelicot Require Import Complex.
From Verif.Base Require Import Py Arr Vec Sums CSum.
From Verif.Model Require Import Fresnel Mft.
From Verif.Spec Require Import FresnelSpec MftSpec.
From Verif.Proofs Require Import FresnelP.
Import ListNotations.
Open Scope Z_scope.

Lemma interval_ok n d : 0 < n -> (0 < d)%R ->
  interval (IZR n / d) n = Ok (Vec n (fun k => IZR (- (n / 2) + k) * (IZR n / d / IZR n))%R, (IZR n / d / IZR n)%R).
Proof.
  intros Hn Hd. unfold interval, guard. rewrite pos_real_true.
  - cbn [bind]. destruct (Z.ltb_spec 0 n); [|lia]. reflexivity.
  - apply Rdiv_lt_0_compat; auto. apply IZR_lt; auto.
Qed.
Lemma interval_bad n d : n <= 0 -> (0 < d)%R -> interval (IZR n / d) n = Err TypeError.
Proof.
  intros Hn Hd. unfold interval, guard. destruct (pos_real _); [|reflexivity]. cbn [bind].
  destruct (Z.ltb_spec 0 n); [lia|]. reflexivity.
Qed.
Lemma dx_eq n d : 0 < n -> (0 < d)%R -> (IZR n / d / IZR n = / d)%R.
Proof. intros Hn Hd. assert (IZR n <> 0%R) by (apply not_0_IZR; lia). field. lra. Qed.

(** Matrix product of exponentials. *)
Lemma mdot2 (s : R) (e : arr C) rp r c cp (d1 d2 : R) : vlen r = nr e -> vlen c = nc e ->
  exists o, (do t <- mdot (exp_outer s rp r) e; do t <- mdot t (exp_outer s c cp);
             Ok (ascale d2 (ascale d1 t))) = Ok o /\ nr o = vlen rp /\ nc o = vlen cp /\
  forall u v, at2 o u v = (csum2 (fun i j => at2 e i j *
      cis (s * 2 * PI * (vat rp u * vat r i + vat cp v * vat c j))) (nr e) (nc e) * RtoC d1 * RtoC d2)%C.
Proof.
  intros H1 H2. unfold mdot, guard. cbn [exp_outer nc nr]. rewrite H1, Z.eqb_refl. cbn [bind nc nr].
  rewrite H2, Z.eqb_refl. cbn [bind]. eexists; split; [reflexivity|]. split; [reflexivity|].
  split; [reflexivity|]. intros u v. cbn [ascale amap at2 exp_outer]. f_equal. f_equal.
  unfold csum2. rewrite csum_swap. apply csum_ext. intros j Hj. rewrite <- csum_scal_r.
  apply csum_ext. intros i Hi.
  replace (s * 2 * PI * (vat rp u * vat r i + vat cp v * vat c j))%R
    with (s * 2 * PI * (vat rp u * vat r i) + s * 2 * PI * (vat c j * vat cp v))%R by ring.
  rewrite cis_add. ring.
Qed.
Lemma fourier_ext s (e : arr C) din dout h w u v (X : Z -> Z -> R) (d : R) :
  (forall i j, (s * 2 * PI * (IZR (u - h / 2) / dout * (IZR (i - nr e / 2) / din) +
                         IZR (v - w / 2) / dout * (IZR (j - nc e / 2) / din)))%R = X i j) ->
  (d = / din ^ 2)%R ->
  (csum2 (fun i j => at2 e i j * cis (X i j)) (nr e) (nc e) * RtoC d)%C = fourier_sum s e din dout h w u v.
Proof. intros H ->. unfold fourier_sum. f_equal. apply csum2_ext. intros. rewrite H. reflexivity. Qed.

Lemma do_mft_ok e h w ppl ppp : 0 < nr e -> 0 < nc e -> 0 < h -> 0 < w -> (0 < ppl)%R -> (0 < ppp)%R ->
  exists o, do_mft e [h; w] ppl ppp = Ok o /\ nr o = h /\ nc o = w /\
  forall u v, at2 o u v = fourier_sum (-1) e ppp ppl h w u v.
Proof.
  intros. unfold do_mft, guard. rewrite !pos_real_true by auto. cbn [bind shape2].
  unfold guard. destruct (Z.leb_spec 1 h); [|lia]. destruct (Z.leb_spec 1 w); [|lia]. cbn [bind fst snd].
  rewrite !interval_ok by auto. cbn [bind fst snd].
  edestruct mdot2 as (o & E & A & B & D); [| |exists o; split; [exact E|]]; [reflexivity|reflexivity|].
  split; auto. split; auto. intros u v. rewrite D. rewrite <- Cmult_assoc, <- RtoC_mult.
  apply fourier_ext.
  - intros i j. cbn [vat]. rewrite !dx_eq by auto. rewrite !minus_IZR, !plus_IZR, !opp_IZR. unfold Rdiv. ring.
  - rewrite !dx_eq by auto. cbn. rewrite Rmult_1_r, Rinv_mult. reflexivity.
Qed.
Lemma do_imft_ok e h w ppl ppp : 0 < nr e -> 0 < nc e -> 0 < h -> 0 < w -> (0 < ppl)%R -> (0 < ppp)%R ->
  exists o, do_imft e [h; w] ppl ppp = Ok o /\ nr o = h /\ nc o = w /\
  forall u v, at2 o u v = fourier_sum 1 e ppl ppp h w u v.
Proof.
  intros. unfold do_imft, guard. rewrite !pos_real_true by auto. cbn [bind shape2].
  unfold guard. destruct (Z.leb_spec 1 h); [|lia]. destruct (Z.leb_spec 1 w); [|lia]. cbn [bind fst snd].
  rewrite !interval_ok by auto. cbn [bind fst snd].
  edestruct mdot2 as (o & E & A & B & D); [| |exists o; split; [exact E|]]; [reflexivity|reflexivity|].
  split; auto. split; auto. intros u v. rewrite D. rewrite <- Cmult_assoc, <- RtoC_mult.
  apply fourier_ext.
  - intros i j. cbn [vat]. rewrite !dx_eq by auto. rewrite !minus_IZR, !plus_IZR, !opp_IZR. unfold Rdiv. ring.
  - rewrite !dx_eq by auto. cbn. rewrite Rmult_1_r, Rinv_mult. reflexivity.
Qed.
Lemma csum2_window (f : Z -> Z -> C) (e : arr C) H W y0 x0 : wf e ->
  0 <= y0 -> y0 + nr e <= H -> 0 <= x0 -> x0 + nc e <= W ->
  csum2 (fun i j => (if in_arrb e (i - y0)%Z (j - x0)%Z then at2 e (i - y0)%Z (j - x0)%Z else RtoC 0) * f i j)%C H W
  = csum2 (fun i j => at2 e i j * f (y0 + i)%Z (x0 + j)%Z)%C (nr e) (nc e).
Proof.
  intros [W1 W2] H1 H2 H3 H4. unfold csum2.
  rewrite <- (csum_window (fun i => csum (fun j => at2 e i j * f (y0 + i)%Z (x0 + j)%Z)%C (nc e)) H y0 (nr e)) by auto.
  apply csum_ext. intros i Hi. unfold in_arrb.
  destruct (Z.leb_spec 0 (i - y0)), (Z.ltb_spec (i - y0) (nr e)), (Z.leb_spec y0 i), (Z.ltb_spec i (y0 + nr e));
    try lia; cbn [andb].
  2-3: apply csum_all_zero; intros; ring.
  rewrite <- (csum_window (fun j => at2 e (i - y0)%Z j * f (y0 + (i - y0))%Z (x0 + j)%Z)%C W x0 (nc e)) by auto.
  apply csum_ext. intros j Hj.
  destruct (Z.leb_spec 0 (j - x0)), (Z.ltb_spec (j - x0) (nc e)), (Z.leb_spec x0 j), (Z.ltb_spec j (x0 + nc e));
    try lia; cbn [andb]; try ring.
  replace (y0 + (i - y0)) with i by ring. replace (x0 + (j - x0)) with j by ring. reflexivity.
Qed.
Lemma vslice_fit n y0 h (x : vec R) : vlen x = n -> 0 <= y0 -> 0 <= h -> y0 + h <= n ->
  vlen (get_vslice x (Slice y0 (y0 + h))) = h /\
  forall i, vat (get_vslice x (Slice y0 (y0 + h))) i = vat x (y0 + i).
Proof.
  intros <- H1 H2 H3. unfold get_vslice, slice_len, slice_lo, slice_bound. cbn [vlen vat s_start s_stop].
  destruct (Z.ltb_spec y0 0); [lia|]. destruct (Z.ltb_spec (y0 + h) 0); [lia|].
  rewrite !Z.min_l by lia. split; [lia|reflexivity].
Qed.
Lemma vslice_misfit n y0 h (x : vec R) : vlen x = n -> 0 <= n -> 0 <= y0 -> 0 < h -> n < y0 + h ->
  vlen (get_vslice x (Slice y0 (y0 + h))) <> h.
Proof.
  intros <- H0 H1 H2 H3. unfold get_vslice, slice_len, slice_lo, slice_bound. cbn [vlen vat s_start s_stop].
  destruct (Z.ltb_spec y0 0); [lia|]. destruct (Z.ltb_spec (y0 + h) 0); lia.
Qed.
Lemma offcenter_ok e h w ppl ppp H W y0 x0 : wf e -> 0 < h -> 0 < w -> (0 < ppl)%R -> (0 < ppp)%R ->
  0 < H -> 0 < W -> 0 <= y0 -> y0 + nr e <= H -> 0 <= x0 -> x0 + nc e <= W ->
  exists o, do_offcenter_mft e [h; w] ppl ppp [H; W] [y0; x0] = Ok o /\ nr o = h /\ nc o = w /\
  forall u v, at2 o u v = fourier_sum (-1) (embed e H W y0 x0) ppp ppl h w u v.
Proof.
  intros Hwf. intros. unfold do_offcenter_mft, guard. rewrite !pos_real_true by auto. cbn [bind shape2].
  unfold guard. destruct (Z.leb_spec 1 h); [|lia]. destruct (Z.leb_spec 1 w); [|lia]. cbn [bind fst snd].
  destruct (Z.leb_spec 1 H); [|lia]. destruct (Z.leb_spec 1 W); [|lia]. cbn [bind fst snd].
  destruct (Z.leb_spec 0 y0); [|lia]. destruct (Z.leb_spec 0 x0); [|lia]. cbn [bind fst snd].
  rewrite !interval_ok by auto. cbn [bind fst snd]. destruct Hwf as [W1 W2].
  set (rv := Vec H _). set (cv := Vec W _).
  destruct (vslice_fit H y0 (nr e) rv) as [L1 V1]; auto. destruct (vslice_fit W x0 (nc e) cv) as [L2 V2]; auto.
  edestruct mdot2 as (o & E & A & B & D); [| |exists o; split; [exact E|]]; [exact L1|exact L2|].
  split; auto. split; auto. intros u v. rewrite D. rewrite <- Cmult_assoc, <- RtoC_mult.
  unfold fourier_sum. cbn [embed nr nc at2]. rewrite csum2_window by (auto; split; auto). f_equal.
  - apply csum2_ext. intros i j Hi Hj. f_equal. f_equal. rewrite V1, V2. unfold rv, cv. cbn [vat].
    rewrite !dx_eq by auto. rewrite !minus_IZR, !plus_IZR, !opp_IZR. unfold Rdiv. ring.
  - rewrite !dx_eq by auto. f_equal. cbn. rewrite Rmult_1_r, Rinv_mult. reflexivity.
Qed.
Lemma offcenter_misfit e h w ppl ppp H W y0 x0 : 0 < nr e -> 0 < nc e -> 0 < h -> 0 < w -> (0 < ppl)%R -> (0 < ppp)%R ->
  0 < H -> 0 < W -> 0 <= y0 -> 0 <= x0 -> H < y0 + nr e \/ W < x0 + nc e ->
  do_offcenter_mft e [h; w] ppl ppp [H; W] [y0; x0] = Err ValueError.
Proof.
  intros ? ? ? ? ? ? ? ? ? ? MF. unfold do_offcenter_mft, guard. rewrite !pos_real_true by auto. cbn [bind shape2].
  unfold guard. destruct (Z.leb_spec 1 h); [|lia]. destruct (Z.leb_spec 1 w); [|lia]. cbn [bind fst snd].
  destruct (Z.leb_spec 1 H); [|lia]. destruct (Z.leb_spec 1 W); [|lia]. cbn [bind fst snd].
  destruct (Z.leb_spec 0 y0); [|lia]. destruct (Z.leb_spec 0 x0); [|lia]. cbn [bind fst snd].
  rewrite !interval_ok by auto. cbn [bind fst snd]. 
  set (rv := Vec H _). set (cv := Vec W _). unfold mdot, guard. cbn [exp_outer nr nc].
  destruct (Z.eqb_spec (vlen (get_vslice rv (Slice y0 (y0 + nr e)))) (nr e)) as [Q|Q]; [|reflexivity].
  cbn [bind nr nc].
  destruct (Z.eqb_spec (nc e) (vlen (get_vslice cv (Slice x0 (x0 + nc e))))) as [Q'|Q']; [|reflexivity].
  exfalso. destruct MF as [G|G].
  - apply (vslice_misfit H y0 (nr e) rv) in Q; auto; lia.
  - symmetry in Q'. apply (vslice_misfit W x0 (nc e) cv) in Q'; auto; lia.
Qed.
Lemma offcenter_embed e h w ppl ppp H W y0 x0 : wf e -> 0 < h -> 0 < w -> (0 < ppl)%R -> (0 < ppp)%R ->
  0 < H -> 0 < W -> 0 <= y0 -> y0 + nr e <= H -> 0 <= x0 -> x0 + nc e <= W ->
  exists o o', do_offcenter_mft e [h; w] ppl ppp [H; W] [y0; x0] = Ok o /\
    do_mft (embed e H W y0 x0) [h; w] ppl ppp = Ok o' /\ aeq o o'.
Proof.
  intros. destruct (offcenter_ok e h w ppl ppp H W y0 x0) as (o & E & A & B & D); auto.
  destruct (do_mft_ok (embed e H W y0 x0) h w ppl ppp) as (o' & E' & A' & B' & D'); auto.
  exists o, o'. split; auto. split; auto. split; [congruence|]. split; [congruence|]. intros. rewrite D, D'. reflexivity.
Qed.
Lemma offcenter_shift e h w ppl ppp H W y0 x0 y1 x1 o o' : wf e -> 0 < h -> 0 < w -> (0 < ppl)%R -> (0 < ppp)%R ->
  0 < H -> 0 < W -> 0 <= y0 -> y0 + nr e <= H -> 0 <= x0 -> x0 + nc e <= W ->
  0 <= y1 -> y1 + nr e <= H -> 0 <= x1 -> x1 + nc e <= W ->
  do_offcenter_mft e [h; w] ppl ppp [H; W] [y0; x0] = Ok o ->
  do_offcenter_mft e [h; w] ppl ppp [H; W] [y1; x1] = Ok o' ->
  forall u v, in_arr o u v -> at2 o' u v = (at2 o u v *
    cis (- (2 * PI * (IZR (u - h / 2) * IZR (y1 - y0) + IZR (v - w / 2) * IZR (x1 - x0)) / (ppl * ppp))))%C.
Proof.
  intros Hwf ? ? P1 P2 ? ? ? ? ? ? ? ? ? ? E0 E1 u v _.
  destruct (offcenter_ok e h w ppl ppp H W y0 x0) as (p & F0 & _ & _ & D0); auto.
  destruct (offcenter_ok e h w ppl ppp H W y1 x1) as (q & F1 & _ & _ & D1); auto.
  assert (p = o) by congruence. assert (q = o') by congruence. subst p q. rewrite D0, D1.
  unfold fourier_sum. cbn [embed nr nc at2]. rewrite !csum2_window by auto.
  rewrite <- (Cmult_comm (cis _)), Cmult_assoc. f_equal. rewrite <- csum2_scal. apply csum2_ext. intros i j Hi Hj.
  rewrite Cmult_comm, (Cmult_comm (at2 e i j)), Cmult_assoc. f_equal. rewrite <- cis_add. f_equal.
  rewrite !minus_IZR, !plus_IZR. field. lra.
Qed.
Lemma fourier_lin s a b e1 e2 din dout h w u v : nr e1 = nr e2 -> nc e1 = nc e2 ->
  fourier_sum s (lin_comb a b e1 e2) din dout h w u v =
  (a * fourier_sum s e1 din dout h w u v + b * fourier_sum s e2 din dout h w u v)%C.
Proof.
  intros Q1 Q2. unfold fourier_sum. cbn [lin_comb nr nc at2]. rewrite <- Q1, <- Q2.
  rewrite !Cmult_assoc, <- !csum2_scal. rewrite <- Cmult_plus_distr_r. f_equal. rewrite <- csum2_add.
  apply csum2_ext. intros. ring.
Qed.
Lemma mft_linear a b e1 e2 h w ppl ppp o1 o2 : 0 < nr e1 -> 0 < nc e1 -> nr e1 = nr e2 -> nc e1 = nc e2 ->
  do_mft e1 [h; w] ppl ppp = Ok o1 -> do_mft e2 [h; w] ppl ppp = Ok o2 ->
  exists o, do_mft (lin_comb a b e1 e2) [h; w] ppl ppp = Ok o /\ aeq o (lin_comb a b o1 o2).
Proof.
  intros N M Q1 Q2 E1 E2.
  assert (G : 0 < h /\ 0 < w /\ (0 < ppl)%R /\ (0 < ppp)%R).
  { unfold do_mft, guard in E1. destruct (pos_real ppl) eqn:P1; [|discriminate]. cbn [bind] in E1.
    destruct (pos_real ppp) eqn:P2; [|discriminate]. cbn [bind shape2] in E1. unfold guard in E1.
    destruct (Z.leb_spec 1 h); [|discriminate]. destruct (Z.leb_spec 1 w); [|discriminate].
    apply pos_real_iff in P1, P2. repeat split; auto; lia. }
  destruct G as (G1 & G2 & G3 & G4).
  destruct (do_mft_ok e1 h w ppl ppp) as (p1 & F1 & A1 & B1 & D1); auto.
  destruct (do_mft_ok e2 h w ppl ppp) as (p2 & F2 & A2 & B2 & D2); auto; try lia.
  destruct (do_mft_ok (lin_comb a b e1 e2) h w ppl ppp) as (o & F & A & B & D); auto.
  assert (p1 = o1) by congruence. assert (p2 = o2) by congruence. subst p1 p2.
  exists o. split; auto. split; [cbn; lia|]. split; [cbn; lia|]. intros u v _. cbn [lin_comb at2].
  rewrite D, D1, D2. apply fourier_lin; auto.
Qed.
Lemma do_mft_errors e sh ppl ppp ex : wf e -> do_mft e sh ppl ppp = Err ex ->
  ex = TypeError /\ ((ppl <= 0)%R \/ (ppp <= 0)%R \/ nr e = 0 \/ nc e = 0 \/
     ~ exists h w, sh = [h; w] /\ 0 < h /\ 0 < w).
Proof.
  intros [W1 W2] E.
  destruct (Rlt_dec 0 ppl) as [P1|P1].
  2:{ unfold do_mft, guard, pos_real in E. destruct (Rlt_dec 0 ppl); [contradiction|]. injection E as <-. split; auto. left; lra. }
  destruct (Rlt_dec 0 ppp) as [P2|P2].
  2:{ unfold do_mft, guard in E. rewrite pos_real_true in E by auto. cbn [bind] in E. unfold pos_real in E.
      destruct (Rlt_dec 0 ppp); [contradiction|]. injection E as <-. split; auto. right; left; lra. }
  unfold do_mft, guard in E. rewrite !pos_real_true in E by auto. cbn [bind] in E.
  assert (S : (exists h w, sh = [h; w] /\ 0 < h /\ 0 < w) \/ shape2 1 sh = Err TypeError /\ ~ exists h w, sh = [h; w] /\ 0 < h /\ 0 < w).
  { unfold shape2, guard. destruct sh as [|h [|w [|? ?]]];
      try (right; split; [reflexivity|]; intros (? & ? & Q & _); discriminate).
    destruct (Z.leb_spec 1 h).
    - destruct (Z.leb_spec 1 w); [left; exists h, w; repeat split; lia|].
      right. split; [reflexivity|]. intros (? & ? & Q & ? & ?). injection Q as <- <-. lia.
    - right. split; [reflexivity|]. intros (? & ? & Q & ? & ?). injection Q as <- <-. lia. }
  destruct S as [(h & w & -> & Hh & Hw)|[S NS]].
  2:{ rewrite S in E. cbn [bind] in E. injection E as <-. split; [auto|]. do 4 right; auto. }
  cbn [shape2] in E. unfold guard in E. destruct (Z.leb_spec 1 h); [|lia]. destruct (Z.leb_spec 1 w); [|lia].
  cbn [bind fst snd] in E.
  destruct (Z.eq_dec (nr e) 0) as [Z1|Z1].
  { rewrite (interval_bad (nr e)) in E by (auto; lia). injection E as <-. split; [auto|tauto]. }
  destruct (Z.eq_dec (nc e) 0) as [Z2|Z2].
  { rewrite (interval_ok (nr e)) in E by (auto; lia). rewrite (interval_bad (nc e)) in E by (auto; lia).
    injection E as <-. split; [auto|tauto]. }
  exfalso. destruct (do_mft_ok e h w ppl ppp) as (o & Eo & _); auto; try lia.
  unfold do_mft, guard in Eo. rewrite !pos_real_true in Eo by auto. cbn [bind shape2] in Eo. unfold guard in Eo.
  destruct (Z.leb_spec 1 h); [|lia]. destruct (Z.leb_spec 1 w); [|lia]. cbn [bind fst snd] in Eo. congruence.
Qed.

(** *** Inversion at critical sampling *)
Lemma csum2_swap4 (f : Z -> Z -> Z -> Z -> C) n m N M :
  csum2 (fun u v => csum2 (fun i j => f u v i j) n m) N M
  = csum2 (fun i j => csum2 (fun u v => f u v i j) N M) n m.
Proof.
  unfold csum2.
  rewrite (csum_ext _ (fun u => csum (fun i => csum (fun v => csum (fun j => f u v i j) m) M) n))
    by (intros; apply csum_swap).
  rewrite csum_swap. apply csum_ext. intros i Hi.
  rewrite (csum_ext _ (fun u => csum (fun j => csum (fun v => f u v i j) M) m)) by (intros; apply csum_swap).
  apply csum_swap.
Qed.
Lemma w_centred_sum N a : 0 < N -> - N < a < N ->
  csum (fun u => w N ((u - N / 2) * a)) N = if a =? 0 then RtoC (IZR N) else RtoC 0.
Proof.
  intros HN Ha. rewrite (csum_ext _ (fun u => w N (- (N / 2) * a) * w N (a * u))%C).
  2:{ intros u Hu. rewrite <- w_add. f_equal. ring. }
  rewrite csum_scal, w_sum by auto. destruct (Z.eqb_spec a 0) as [->|N0].
  - rewrite Z.mul_0_r, w_0, Z.mod_0_l by lia. cbn [Z.eqb]. ring.
  - destruct (Z.eqb_spec (a mod N) 0) as [B|_]; [|ring]. exfalso.
    apply Z.mod_divide in B; [|lia]. destruct B as [q ->]. destruct (Z.lt_trichotomy q 0) as [K|[K|K]]; [|subst q; lia|]; nia.
Qed.
Lemma imft_mft e N ppl ppp f : wf e -> (0 < ppl)%R -> (0 < ppp)%R -> IZR N = (ppl * ppp)%R ->
  nr e <= N -> nc e <= N -> do_mft e [N; N] ppl ppp = Ok f ->
  exists g, do_imft f [nr e; nc e] ppl ppp = Ok g /\ aeq g e.
Proof.
  intros [W1 W2] P1 P2 HN L1 L2 E.
  assert (N0 : 0 < N) by (apply lt_IZR; rewrite HN; apply Rmult_lt_0_compat; auto).
  assert (NE : nr e <> 0 /\ nc e <> 0).
  { unfold do_mft, guard in E. rewrite !pos_real_true in E by auto. cbn [bind shape2] in E. unfold guard in E.
    destruct (Z.leb_spec 1 N); [|lia]. cbn [bind fst snd] in E.
    destruct (Z.eq_dec (nr e) 0) as [Z1|Z1]; [rewrite (interval_bad (nr e)) in E by (auto; lia); discriminate|].
    destruct (Z.eq_dec (nc e) 0) as [Z2|Z2]; auto.
    rewrite (interval_ok (nr e)) in E by (auto; lia). rewrite (interval_bad (nc e)) in E by (auto; lia). discriminate. }
  destruct (do_mft_ok e N N ppl ppp) as (f' & E' & A & B & D); auto; try lia. assert (f' = f) by congruence. subst f'.
  destruct (do_imft_ok f (nr e) (nc e) ppl ppp) as (g & E2 & A2 & B2 & D2); auto; try lia.
  exists g. split; auto. split; auto. split; auto. intros p q [Hp Hq]. rewrite A2 in Hp. rewrite B2 in Hq.
  rewrite D2. unfold fourier_sum. rewrite A, B.
  assert (PN : (ppl <> 0 /\ ppp <> 0)%R) by lra.
  rewrite (csum2_ext _ (fun u v => csum2 (fun i j => (RtoC (/ ppp ^ 2) * at2 e i j) *
     (w N ((u - N / 2) * (p - i)) * w N ((v - N / 2) * (q - j)))) (nr e) (nc e)))%C.
  2:{ intros u v Hu Hv. rewrite D. unfold fourier_sum. rewrite <- Cmult_assoc, <- csum2_scal_r.
      apply csum2_ext. intros i j Hi Hj.
      rewrite (Cmult_comm (at2 e i j)), (Cmult_comm (RtoC (/ ppp ^ 2)) (at2 e i j)).
      rewrite <- !Cmult_assoc. rewrite (Cmult_comm (cis _)). rewrite <- !Cmult_assoc. f_equal. f_equal.
      unfold w. rewrite <- !cis_add. f_equal. rewrite HN, !mult_IZR, !minus_IZR. field; tauto. }
  rewrite csum2_swap4.
  rewrite (csum2_ext _ (fun i j => if ((i =? p) && (j =? q))%Z then (RtoC (/ ppp ^ 2) * at2 e i j * RtoC (IZR N * IZR N)) else RtoC 0))%C.
  - rewrite csum2_delta by auto. rewrite HN, <- Cmult_assoc, (Cmult_comm _ (at2 e p q)), <- !Cmult_assoc.
    rewrite <- !RtoC_mult. replace (/ ppp ^ 2 * (ppl * ppp * (ppl * ppp) * / ppl ^ 2))%R with 1%R by (field; auto). ring.
  - intros i j Hi Hj. rewrite csum2_scal.
    assert (PR : csum2 (fun u v => w N ((u - N / 2) * (p - i)) * w N ((v - N / 2) * (q - j)))%C N N =
       (csum (fun u => w N ((u - N / 2) * (p - i))) N * csum (fun v => w N ((v - N / 2) * (q - j))) N)%C)
      by (symmetry; apply csum_prod).
    rewrite PR, !w_centred_sum by lia.
    destruct (Z.eqb_spec i p), (Z.eqb_spec (p - i) 0), (Z.eqb_spec j q), (Z.eqb_spec (q - j) 0);
      try lia; cbn [andb]; rewrite ?RtoC_mult; ring.
Qed.
