(** Error of the whole propagation. *)
From Coq Require Import ZArith Reals Bool List Lia Lra Psatz.
From Coquelicot Require Import Complex.
From Flocq Require Import Core BinarySingleNaN.
From Verif.Base Require Import Py F64 Arr Sums CSum Fft.
From Verif.Model Require Import PadCrop MftF FresnelF Fresnel.
From Verif.Spec Require Import MftFSpec NollFSpec FresnelSpec FresnelFSpec.
From Verif.Proofs Require Import F64P F64N PiP PadCropP ShapesGA NollFP MftFP MftFQ MftFR FresnelP FresnelFP FresnelFQ.
Import ListNotations.
Local Open Scope R_scope.
Local Notation B := (bpow radix2).
Local Notation u := NollFP.u.
Local Notation vals a := (fun k l => cval (at2 a k l)).

Lemma shifted eta exact f (a : arr c128) n (T : Z -> Z -> C) : transform_ok eta exact f -> nr a = n -> nc a = n -> (0 < n <= 2 ^ 20)%Z -> finite_field a -> nrm n n (vals a) <= B 500 ->
  (exists o, exact (ifftshift (cvals a)) = Ok o /\ nr (fftshift o) = n /\ nc (fftshift o) = n /\ forall k l, at2 (fftshift o) k l = T k l) ->
  let r := fftshift (f (ifftshift a)) in nr r = n /\ nc r = n /\ finite_field r /\ nrm n n (fun k l => cval (at2 r k l) - T k l)%C <= eta * nrm n n T + B (-900).
Proof.
  intros Hf A D Hn Fa Sa (o & Eo & Ro & Co & To) r. set (b := ifftshift a) in *.
  destruct (Hf b) as (o' & E' & R1 & C1 & F1 & D1).
  - cbn. lia.
  - cbn. lia.
  - intros i j [Hi Hj]. cbn [b ifftshift roll2 at2 nr nc] in *. apply Fa. split; apply Z.mod_pos_bound; lia.
  - rewrite field_size_nrm. cbn [b cvals ifftshift roll2 at2 nr nc]. rewrite A, D, (nrm_roll n n (vals a)) by lia. exact Sa.
  - change (cvals b) with (ifftshift (cvals a)) in E'. assert (o' = o) by congruence. subst o'. cbn [b ifftshift roll2 nr nc] in R1, C1.
    change (nr r) with (nr (f b)). change (nc r) with (nc (f b)). split; [congruence|]. split; [congruence|]. cbn [fftshift roll2 nr nc] in Ro, Co.
    assert (En : nrm n n T = field_size o).
    { rewrite field_size_nrm, Ro, Co. rewrite <- (nrm_roll n n (at2 o) (n / 2) (n / 2)) by lia. apply nrm_ext. intros k l _ _. rewrite <- To. cbn [fftshift roll2 at2]. rewrite Ro, Co. reflexivity. }
    split. { intros i j [Hi Hj]. cbn [r fftshift roll2 at2 nr nc] in *. apply F1. split; apply Z.mod_pos_bound; lia. }
    rewrite En. eapply Rle_trans; [|exact D1]. right. rewrite field_dist_nrm. cbn [cvals nr nc at2]. rewrite R1, C1, A, D.
    rewrite <- (nrm_roll n n (fun i j => cval (at2 (f b) i j) - at2 o i j)%C (n / 2) (n / 2)) by lia. apply nrm_ext. intros k l _ _. rewrite <- To. unfold r. cbn [fftshift roll2 at2].
    rewrite R1, C1, A, D, Ro, Co. reflexivity.
Qed.
Lemma nrm_rescale n (X : Z -> Z -> C) : (0 < n)%Z -> nrm n n (fun i j => cdft2 1 n n X i j / RtoC (IZR n * IZR n))%C = nrm n n X / IZR n.
Proof.
  intros Hn. assert (N0 : 0 < IZR n) by (apply IZR_lt; auto). assert (N1 : RtoC (IZR n * IZR n) <> RtoC 0) by (apply RtoC_nm; auto).
  rewrite (nrm_ext _ _ _ (fun i j => (/ RtoC (IZR n * IZR n)) * cdft2 1 n n X i j)%C) by (intros; unfold Cdiv; ring). rewrite nrm_scal, nrm_dft by (auto; lia).
  rewrite Cmod_inv by auto. rewrite Cmod_R, Rabs_right by nra. field. lra.
Qed.
Lemma pad_vals (a : arr c128) h w out : wf a -> (0 < h)%Z -> (0 < w)%Z -> pad_crop a [h; w] (fzero, fzero) = Ok out -> finite_field a ->
  nr out = h /\ nc out = w /\ finite_field out /\ exists x, pad_crop (cvals a) [h; w] (RtoC 0) = Ok x /\ aeq (cvals out) x.
Proof.
  intros Hw Hh Hw0 E Fa. destruct (pad_crop_ok a h w (fzero, fzero) Hw Hh Hw0) as (o & E' & A & D & G). assert (o = out) by congruence. subst o. split; auto. split; auto.
  destruct (pad_crop_ok (cvals a) h w (RtoC 0) Hw Hh Hw0) as (x & Ex & A' & D' & G'). split.
  - intros i j [Hi Hj]. rewrite G by lia. destruct (in_arrb a _ _) eqn:I; [|split; reflexivity]. apply Fa. unfold in_arrb in I. rewrite !andb_true_iff, !Z.leb_le, !Z.ltb_lt in I. split; lia.
  - exists x. split; auto. split; [cbn; congruence|]. split; [cbn; congruence|]. intros i j [Hi Hj]. cbn [cvals nr nc at2] in *. rewrite G, G' by lia. cbn [cvals nr nc at2].
    change (in_arrb (cvals a)) with (in_arrb a). destruct (in_arrb a _ _); reflexivity.
Qed.
Lemma pad_dist (a b x y : arr C) h w : wf a -> nr a = nr b -> nc a = nc b -> (0 < h)%Z -> (0 < w)%Z -> pad_crop a [h; w] (RtoC 0) = Ok x -> pad_crop b [h; w] (RtoC 0) = Ok y -> field_dist x y <= field_dist a b.
Proof.
  intros Hw A D Hh Hw0 Ex Ey. set (d := Arr (nr a) (nc a) (fun i j => at2 a i j - at2 b i j)%C). assert (Wd : wf d) by exact Hw. assert (Wb : wf b) by (destruct Hw; split; congruence).
  destruct (pad_crop_ok a h w (RtoC 0) Hw Hh Hw0) as (x' & Ex' & X1 & X2 & X3). assert (x' = x) by congruence. subst x'.
  destruct (pad_crop_ok b h w (RtoC 0) Wb Hh Hw0) as (y' & Ey' & Y1 & Y2 & Y3). assert (y' = y) by congruence. subst y'.
  destruct (pad_crop_ok d h w (RtoC 0) Wd Hh Hw0) as (o & Eo & O1 & O2 & O3). pose proof (pad_crop_energy_le d o h w Wd Eo) as L. unfold field_dist. apply sqrt_le_1_alt. fold d. eapply Rle_trans; [|exact L].
  right. apply aeq_energy. split; [cbn; congruence|]. split; [cbn; congruence|]. intros i j [Hi Hj]. cbn [nr nc at2] in *. rewrite X3, Y3, O3 by lia. cbn [d nr nc at2]. unfold in_arrb. cbn [d nr nc]. rewrite <- A, <- D.
  destruct (_ && _); [reflexivity|]. ring.
Qed.
Lemma aeq_dist a a' b : aeq a a' -> field_dist a b = field_dist a' b.
Proof. intros (H1 & H2 & H3). rewrite !field_dist_nrm, <- H1, <- H2. apply nrm_ext. intros i j Hi Hj. rewrite H3 by (split; auto). reflexivity. Qed.
Lemma aeq_size a a' : aeq a a' -> field_size a = field_size a'.
Proof. intros H. unfold field_size. rewrite (aeq_energy _ _ H). reflexivity. Qed.

Section Lib.
Variables (pw : f64 -> option f64) (h : f64 -> f64 -> f64) (ex : c128 -> c128) (ffft fifft : arr c128 -> arr c128) (eta : R).
Hypotheses (Heta : 0 <= eta <= / 100) (Hfft : transform_ok eta fft2 ffft) (Hifft : transform_ok eta ifft2 fifft).

Lemma grid_near (a : arr c128) nx fp (P : Z -> Z -> C) del : nr a = nx -> nc a = nx -> nr fp = nx -> nc fp = nx -> (0 < nx <= 2 ^ 20)%Z -> finite_field a -> nrm nx nx (vals a) <= B 450 -> 0 <= del <= / 100 ->
  (forall k l, (0 <= k < nx)%Z -> (0 <= l < nx)%Z -> cfin (at2 fp k l) /\ Cmod (P k l) = 1 /\ Cmod (cval (at2 fp k l) - P k l)%C <= del) ->
  exists o, (do f <- do_fft_f ffft a; do g <- imul_f f fp; do_ifft_f fifft g) = Ok o /\ nr o = nx /\ nc o = nx /\ finite_field o /\
  nrm nx nx (fun i j => cval (at2 o i j) - cdft2 1 nx nx (fun k l => cdft2 (-1) nx nx (vals a) k l * P k l) i j / RtoC (IZR nx * IZR nx))%C
    <= (21 / 10 * eta + 11 / 10 * (del + 10 * u)) * nrm nx nx (vals a) + B (-890).
Proof.
  intros A D Fr Fc Hn Fa Sa Hd HP. set (E := nrm nx nx (vals a)) in *. assert (E0 : 0 <= E) by apply nrm_ge0. pose proof u_small as Us. pose proof u_pos as U0.
  assert (N1 : 1 <= IZR nx) by (apply IZR_le; lia). assert (N2 : IZR nx <= B 20) by (change (B 20) with (IZR (2 ^ 20)); apply IZR_le; lia). set (n := IZR nx) in *.
  set (tau := B (-900)). assert (T0 : 0 < tau) by apply bpow_gt_0. assert (T1 : tau <= 1) by (change 1 with (B 0); apply bpow_le; lia).
  assert (B450 : 1 <= B 450) by (change 1 with (B 0); apply bpow_le; lia).
  assert (NE : n * E <= B 470) by (change 470%Z with (20 + 450)%Z; rewrite bpow_plus; apply Rmult_le_compat; lra). assert (NE0 : 0 <= n * E) by (apply Rmult_le_pos; lra).
  assert (B470 : 1 <= B 470) by (change 1 with (B 0); apply bpow_le; lia). assert (B500 : 1000 * B 470 <= B 500) by (apply Rle_trans with (B 10 * B 470); [change (B 10) with 1024; lra|rewrite <- bpow_plus; apply bpow_le; lia]).
  set (F := cdft2 (-1) nx nx (vals a)). assert (NF : nrm nx nx F = n * E) by (apply nrm_dft; [auto|lia]).
  (* the forward transform *)
  destruct (shifted eta fft2 ffft a nx F Hfft A D Hn Fa) as (R1 & C1 & F1 & D1). { fold E. assert (B 450 <= B 470) by (apply bpow_le; lia). lra. }
  { destruct (fftshift_fft2 (cvals a)) as (o & Eo & Ro & Co & To); [cbn; lia|cbn; lia|]. exists o. cbn [cvals nr nc at2] in *. rewrite A in Ro, To. rewrite D in Co, To. auto. }
  unfold do_fft_f. rewrite nonempty_true by lia. cbn [guard bind]. set (f := fftshift (ffft (ifftshift a))) in *. fold tau in D1. rewrite NF in D1.
  assert (Nf : nrm nx nx (vals f) <= n * E + (eta * (n * E) + tau)) by (eapply Rle_trans; [apply (nrm_near _ _ _ F)|]; rewrite NF; lra).
  assert (eE : eta * (n * E) <= / 100 * (n * E)) by (apply Rmult_le_compat_r; lra).
  (* the product *)
  set (g := Arr (nr f) (nc f) (fun i j => cmul (at2 f i j) (at2 fp (bc_idx (nr fp) i) (bc_idx (nc fp) j)))).
  assert (Eg : imul_f f fp = Ok g) by (unfold imul_f, bc_ok; rewrite Fr, Fc, R1, C1, Z.eqb_refl; cbn [andb orb guard bind]; unfold g; rewrite R1, C1, Fr, Fc; reflexivity).
  rewrite Eg. cbn [bind]. assert (Gr : nr g = nx) by exact R1. assert (Gc : nc g = nx) by exact C1.
  assert (Gp : forall k l, (0 <= k < nx)%Z -> (0 <= l < nx)%Z -> at2 g k l = cmul (at2 f k l) (at2 fp k l)).
  { intros k l Hk Hl. cbn [g at2]. rewrite Fr, Fc. unfold bc_idx. destruct (Z.eqb_spec nx 1); auto. replace k with 0%Z by lia. replace l with 0%Z by lia. reflexivity. }
  assert (Ge : forall k l, (0 <= k < nx)%Z -> (0 <= l < nx)%Z -> cfin (at2 g k l) /\ Cmod (cval (at2 g k l) - cval (at2 f k l) * P k l)%C <= (del + 10 * u) * Cmod (cval (at2 f k l)) + B (-1060)).
  { intros k l Hk Hl. rewrite Gp by auto. destruct (HP k l Hk Hl) as (Ff & P1 & Pd). set (z := at2 f k l). set (w := at2 fp k l) in *. assert (Fz : cfin z) by (apply F1; split; lia).
    assert (Zs : Cmod (cval z) <= B 500) by (eapply Rle_trans; [apply (nrm_term nx nx (vals f) k l); auto|]; lra). pose proof (Cmod_ge_0 (cval z)) as Z0.
    assert (Ws : Cmod (cval w) <= 101 / 100) by (eapply Rle_trans; [apply (Cmod_near _ (P k l))|]; rewrite P1; lra).
    destruct (cmul_err z w (101 / 100 * Cmod (cval z)) Fz Ff) as [Q1 Q2].
    - rewrite (Rmult_comm (101 / 100)). apply Rmult_le_compat_l; auto.
    - apply Rle_trans with (B 1 * B 500); [change (B 1) with 2; lra|rewrite <- bpow_plus; apply bpow_le; lia].
    - split; auto. eapply Rle_trans; [apply (Cmod_sub_le _ (cval z * cval w)%C)|]. replace (cval z * cval w - cval z * P k l)%C with (cval z * (cval w - P k l))%C by ring. rewrite Cmod_mult.
      assert (Cmod (cval z) * Cmod (cval w - P k l)%C <= Cmod (cval z) * del) by (apply Rmult_le_compat_l; auto). assert (0 <= u * Cmod (cval z)) by (apply Rmult_le_pos; lra). lra. }
  assert (Fg : finite_field g) by (intros i j [Hi Hj]; rewrite Gr in Hi; rewrite Gc in Hj; apply Ge; auto).
  set (G := fun k l => (F k l * P k l)%C). assert (NG : nrm nx nx G = n * E).
  { rewrite <- NF. unfold nrm. f_equal. apply rsum2_ext. intros k l Hk Hl. unfold G. rewrite Cmod2_mult, (Cmod2_Cmod (P k l)), (proj1 (proj2 (HP k l Hk Hl))). ring. }
  set (kap := del + 10 * u) in *. assert (K0 : 0 <= kap <= / 50) by (unfold kap; lra).
  assert (Dg : nrm nx nx (fun k l => cval (at2 g k l) - G k l)%C <= kap * (n * E + (eta * (n * E) + tau)) + n * tau + (eta * (n * E) + tau)).
  { eapply Rle_trans; [apply (nrm_tri _ _ _ (fun k l => cval (at2 f k l) * P k l)%C)|]. apply Rplus_le_compat.
    - eapply Rle_trans; [apply (nrm_mixed nx _ (vals f) kap (B (-1060))); [lia|lra|apply bpow_ge_0|]|].
      + intros k l Hk Hl. apply Ge; auto.
      + assert (B (-1060) <= tau) by (apply bpow_le; lia). apply Rplus_le_compat; [apply Rmult_le_compat_l; lra|apply Rmult_le_compat_l; fold n; lra].
    - eapply Rle_trans; [|exact D1]. rewrite <- (Rmult_1_l (nrm nx nx (fun k l => cval (at2 f k l) - F k l)%C)). apply nrm_le; [lra|]. intros k l Hk Hl. unfold G.
      replace (cval (at2 f k l) * P k l - F k l * P k l)%C with ((cval (at2 f k l) - F k l) * P k l)%C by ring. rewrite Cmod_mult, (proj1 (proj2 (HP k l Hk Hl))). lra. }
  assert (Dg' : nrm nx nx (fun k l => cval (at2 g k l) - G k l)%C <= n * ((101 / 100 * kap + eta) * E + 3 * tau)).
  { eapply Rle_trans; [exact Dg|]. assert (kap * (n * E + (eta * (n * E) + tau)) <= kap * (101 / 100 * (n * E)) + tau).
    { assert (kap * tau <= 1 * tau) by (apply Rmult_le_compat_r; lra). assert (kap * (n * E + eta * (n * E)) <= kap * (101 / 100 * (n * E))) by (apply Rmult_le_compat_l; lra). lra. }
    assert (tau <= n * tau) by nra. replace (n * ((101 / 100 * kap + eta) * E + 3 * tau)) with (kap * (101 / 100 * (n * E)) + eta * (n * E) + 3 * (n * tau)) by ring. lra. }
  set (dd := (101 / 100 * kap + eta) * E + 3 * tau) in *. assert (ke : 0 <= 101 / 100 * kap + eta <= / 10) by lra. assert (keE : 0 <= (101 / 100 * kap + eta) * E <= / 10 * E) by (split; [apply Rmult_le_pos; lra|apply Rmult_le_compat_r; lra]).
  assert (Ng : nrm nx nx (vals g) <= n * (E + dd)) by (eapply Rle_trans; [apply (nrm_near _ _ _ G)|]; rewrite NG; lra).
  (* the inverse transform *)
  set (H := fun i j => (cdft2 1 nx nx (vals g) i j / RtoC (n * n))%C).
  destruct (shifted eta ifft2 fifft g nx H Hifft Gr Gc Hn Fg) as (R2 & C2 & F2 & D2).
  { apply Rle_trans with (1 := Ng). assert (n * tau <= n * 1) by (apply Rmult_le_compat_l; lra). assert (n <= B 470) by (apply Rle_trans with (1 := N2); apply bpow_le; lia).
    assert (n * ((101 / 100 * kap + eta) * E) <= n * (/ 10 * E)) by (apply Rmult_le_compat_l; lra). unfold dd. lra. }
  { destruct (fftshift_ifft2 (cvals g)) as (o & Eo & Ro & Co & To); [change (0 < nr g)%Z; lia|change (0 < nc g)%Z; lia|]. exists o. cbn [cvals nr nc at2] in *. rewrite Gr in Ro, To. rewrite Gc in Co, To. auto. }
  unfold do_ifft_f. rewrite nonempty_true by lia. cbn [guard bind]. set (o := fftshift (fifft (ifftshift g))) in *. exists o. split; [reflexivity|]. split; [auto|]. split; [auto|]. split; [auto|].
  assert (NH : nrm nx nx H <= E + dd).
  { unfold H, n. rewrite nrm_rescale by lia. fold n. apply Rmult_le_reg_r with n; [lra|]. unfold Rdiv. rewrite Rmult_assoc, Rinv_l, Rmult_1_r by lra. rewrite (Rmult_comm _ n). exact Ng. }
  eapply Rle_trans; [apply (nrm_tri _ _ _ H)|].
  assert (DH : nrm nx nx (fun i j => H i j - cdft2 1 nx nx G i j / RtoC (n * n))%C <= dd).
  { rewrite (nrm_ext _ _ _ (fun i j => cdft2 1 nx nx (fun k l => cval (at2 g k l) - G k l)%C i j / RtoC (n * n))%C) by (intros; rewrite cdft2_sub; unfold H, Cdiv; ring). unfold n at 1 2. rewrite nrm_rescale by lia. fold n.
    apply Rmult_le_reg_r with n; [lra|]. unfold Rdiv. rewrite Rmult_assoc, Rinv_l, Rmult_1_r by lra. rewrite (Rmult_comm _ n). exact Dg'. }
  assert (P2 : eta * nrm nx nx H <= eta * E + / 100 * dd).
  { apply Rle_trans with (eta * (E + dd)); [apply Rmult_le_compat_l; lra|]. assert (eta * dd <= / 100 * dd) by (apply Rmult_le_compat_r; unfold dd; lra). lra. }
  assert (T8 : 10 * tau <= B (-890)) by (apply Rle_trans with (B 10 * B (-900)); [change (B 10) with 1024; fold tau; lra|rewrite <- bpow_plus; apply bpow_le; lia]).
  fold tau in D2. change (fun k l => (F k l * P k l)%C) with G. apply Rle_trans with (eta * E + / 100 * dd + tau + dd); [apply Rplus_le_compat; [lra|exact DH]|]. unfold dd.
  assert (0 <= kap * E) by (apply Rmult_le_pos; lra). assert (0 <= eta * E) by (apply Rmult_le_pos; lra). lra.
Qed.
Lemma propagate_near e nx lam z ppm fp del : (0 < nr e)%Z -> (0 < nc e)%Z -> (0 < nx <= 2 ^ 20)%Z -> finite_field e -> field_size (cvals e) <= B 450 -> 0 <= del <= / 100 -> nr fp = nx -> nc fp = nx ->
  (forall k l, (0 <= k < nx)%Z -> (0 <= l < nx)%Z -> cfin (at2 fp k l) /\ Cmod (cval (at2 fp k l) - fresnel_transfer lam z ppm nx k l)%C <= del) ->
  exists out x, propagate_f ffft fifft e nx fp = Ok out /\ nr out = nr e /\ nc out = nc e /\ finite_field out /\ propagated (cvals e) lam z nx ppm x /\
    field_dist (cvals out) x <= (21 / 10 * eta + 11 / 10 * (del + 10 * u)) * field_size (cvals e) + B (-890).
Proof.
  intros Hr Hc Hn Fe Se Hd Fr Fc HP. assert (We : wf e) by (split; lia). pose proof u_pos as U0.
  destruct (pad_crop_ok e nx nx (fzero, fzero) We) as (u0 & E0 & _); [lia|lia|]. destruct (pad_vals e nx nx u0 We ltac:(lia) ltac:(lia) E0 Fe) as (A0 & D0 & F0 & x0 & Ex & Q0).
  destruct (propagate_ok (cvals e) nx (Arr nx nx (fresnel_transfer lam z ppm nx))) as (u' & v & out' & Eu & (V1 & V2 & V3) & Vf & Ev & _); auto; try lia. assert (u' = x0) by congruence. subst u'.
  assert (S0 : nrm nx nx (vals u0) <= field_size (cvals e)).
  { apply Rle_trans with (field_size x0); [right; rewrite <- (aeq_size _ _ Q0), field_size_nrm; cbn [cvals nr nc at2]; rewrite A0, D0; reflexivity|]. unfold field_size. apply sqrt_le_1_alt. apply (pad_crop_energy_le (cvals e) x0 nx nx We Ex). }
  destruct (grid_near u0 nx fp (fresnel_transfer lam z ppm nx) del A0 D0 Fr Fc Hn F0) as (o & Eo & Ro & Co & Fo & Do); auto; [lra| |].
  { intros k l Hk Hl. destruct (HP k l Hk Hl) as [P1 P2]. split; auto. split; auto. apply Cmod_cis. }
  assert (Wo : wf o) by (split; lia). destruct (pad_crop_ok o (nr e) (nc e) (fzero, fzero) Wo Hr Hc) as (out & E1 & _). destruct (pad_vals o (nr e) (nc e) out Wo Hr Hc E1 Fo) as (A1 & D1 & F1 & x1 & Ex1 & Q1).
  exists out, out'. split. { unfold propagate_f. rewrite E0. cbn [bind]. destruct (do_fft_f ffft u0) as [f1|]; cbn [bind] in *; [|discriminate]. destruct (imul_f f1 fp) as [g1|]; cbn [bind] in *; [|discriminate]. rewrite Eo. cbn [bind]. exact E1. }
  split; auto. split; auto. split; auto. split. { exists x0, v. auto. }
  rewrite (aeq_dist _ _ out' Q1). eapply Rle_trans; [apply (pad_dist (cvals o) v x1 out' (nr e) (nc e)); auto; cbn [cvals nr nc]; congruence|]. rewrite field_dist_nrm. cbn [cvals nr nc at2]. rewrite Ro, Co.
  rewrite (nrm_ext _ _ _ (fun i j => cval (at2 o i j) - cdft2 1 nx nx (fun k l => cdft2 (-1) nx nx (vals u0) k l * fresnel_transfer lam z ppm nx k l) i j / RtoC (IZR nx * IZR nx))%C).
  - eapply Rle_trans; [exact Do|]. apply Rplus_le_compat_r. apply Rmult_le_compat_l; [lra|exact S0].
  - intros i j Hi Hj. rewrite Vf. cbn [at2]. f_equal. f_equal. apply cdft2_ext. intros k l Hk Hl. f_equal. apply cdft2_ext. intros k' l' Hk' Hl'. destruct Q0 as (_ & _ & Q0). cbn [cvals nr nc at2] in Q0. symmetry. apply Q0. split; cbn [cvals nr nc]; lia.
Qed.

Hypotheses (Hpw : pow2_ok pw) (Hh : hypot_ok h) (Hh0 : hypot_zero h) (Hex : cexp_ok ex).
Lemma factor_near lam z nx ppm N : usable_sampling lam -> usable_distance z -> usable_sampling ppm -> (0 < nx <= 2 ^ 20)%Z -> (0 < N <= 2 ^ 20)%Z ->
  points_needed (fval lam) (fval z) (fval ppm) * (1 - B (-50)) <= IZR N -> forall k l, (0 <= k < nx)%Z -> (0 <= l < nx)%Z ->
  let w := at2 (fp_array_f h ex lam z nx ppm) k l in
  cfin w /\ Cmod (cval w - fresnel_transfer (fval lam) (fval z) (fval ppm) nx k l)%C <= B (-49) * (17 / 10 * IZR N) + B (-51).
Proof using Hh Hh0 Hex.
  intros Hl Hz Hp Hn HN HX k l Hk Hl' w. destruct (near_usable _ Hl) as [L0 _]. pose proof pi_bounds as P. set (X := points_needed _ _ _) in *. assert (X0 : 0 <= X).
  { unfold X, points_needed. apply Rmult_le_pos; [apply Rmult_le_pos; [lra|apply Rabs_pos]|apply pow2_ge_0]. }
  assert (B50 : B (-50) <= / 1000) by (apply Rle_trans with (B (-10)); [apply bpow_le; lia|change (B (-10)) with (/ 1024); lra]). assert (N1 : 1 <= IZR N) by (apply IZR_le; lia). assert (N2 : IZR N <= B 20) by (change (B 20) with (IZR (2 ^ 20)); apply IZR_le; lia).
  assert (X1 : X <= 1002 / 1000 * IZR N) by nra.
  assert (Ph : phase_size (fval lam) (fval z) (fval ppm) nx k l <= 17 / 10 * IZR N).
  { eapply Rle_trans; [apply (phase_le _ _ _ nx k l (1002 / 1000 * IZR N)); try lia; try exact X1; try lra|]. assert (PI * IZR N <= 32 / 10 * IZR N) by (apply Rmult_le_compat_r; lra). lra. }
  destruct (entry_near h ex Hh Hh0 Hex lam z nx ppm k l Hl Hz Hp Hn Hk Hl') as [A D].
  - eapply Rle_trans; [exact Ph|]. replace (B 30) with (1024 * B 20) by (change 1024 with (B 10); rewrite <- bpow_plus; reflexivity). pose proof (bpow_gt_0 radix2 20). lra.
  - split; [exact A|]. eapply Rle_trans; [exact D|]. apply Rplus_le_compat_r. apply Rmult_le_compat_l; [apply bpow_ge_0|exact Ph].
Qed.
Lemma total_le N d : (0 < N <= 2 ^ 20)%Z -> 0 <= d -> let del := B (-49) * (17 / 10 * IZR N) + B (-51) in 0 <= del <= / 100 /\ (21 / 10 * eta + 11 / 10 * (del + 10 * u)) * d <= (3 * eta + B (-47) * IZR N) * d.
Proof using Heta.
  intros HN Hd del. assert (N1 : 1 <= IZR N) by (apply IZR_le; lia). assert (N2 : IZR N <= 1048576) by (apply IZR_le; lia). pose proof u_pos as U0.
  assert (Us : u <= / 1000000000000) by (unfold u; apply Rle_trans with (B (-40)); [apply bpow_le; lia|]; change (B (-40)) with (/ 1099511627776); lra).
  unfold del. rewrite (upow 4 (-49)), (upow 2 (-51)), (upow 6 (-47)) by reflexivity. assert (u <= u * IZR N) by nra. assert (u * IZR N <= u * 1048576) by (apply Rmult_le_compat_l; lra). split; [split; lra|]. apply Rmult_le_compat_r; auto. lra.
Qed.
(** ** The two entry points *)
Lemma fresnelprop_f_inv e lam z nx ppm out : usable_sampling lam -> usable_distance z -> usable_sampling ppm -> fval z <> 0 -> fresnelprop_f pw h ex ffft fifft e lam z nx ppm = Ok out ->
  (0 < nx)%Z /\ points_needed (fval lam) (fval z) (fval ppm) * (1 - B (-50)) <= IZR (Z.min (nr e) (nc e)) /\ propagate_f ffft fifft e nx (fp_array_f h ex lam z nx ppm) = Ok out.
Proof using Hpw.
  intros Hl Hz Hp Z0 E. unfold fresnelprop_f in E. rewrite (usable_fle _ Hl), (usable_fle _ Hp) in E. cbn [negb guard bind] in E. destruct (Z.ltb_spec 0 nx); [|discriminate]. cbn [guard bind] in E.
  assert (Fz : feq z fzero = false). { rewrite feq_val by (try apply Hz; reflexivity). apply Req_bool_false. exact Z0. }
  rewrite Fz in E. destruct (spread_near pw lam z ppm Hpw Hl Hz Hp) as (p & Ep & N). unfold n_samples_min_f in E. rewrite Ep in E. cbn [bind] in E. rewrite (int_ceil _ (proj1 N)) in E. cbn [bind] in E.
  set (x := fmul (fmul lam (Babs z)) p) in *. destruct (Z.ltb_spec (Z.min (nr e) (nc e)) (Zceil (fval x))) as [|L]; [discriminate|]. cbn [negb guard bind] in E. split; [auto|]. split; [|exact E].
  assert (Lx : fval x <= IZR (Z.min (nr e) (nc e))) by (apply Rnot_lt_le; rewrite <- ceil_lt; lia). destruct N as (_ & N & _). set (X := points_needed _ _ _) in *.
  assert (X0 : 0 <= X). { destruct (near_usable _ Hl) as [L0 _]. unfold X, points_needed. apply Rmult_le_pos; [apply Rmult_le_pos; [lra|apply Rabs_pos]|apply pow2_ge_0]. }
  rewrite (Rabs_right X) in N by lra. apply Rabs_le_inv in N. rewrite (upow 3 (-50)) by reflexivity. pose proof u_pos. assert (0 <= u * X) by (apply Rmult_le_pos; lra). lra.
Qed.
Lemma fresnelprop_near e lam z nx ppm out : usable_sampling lam -> usable_distance z -> usable_sampling ppm -> fval z <> 0 -> (nx <= 2 ^ 20)%Z -> (0 < Z.min (nr e) (nc e) <= 2 ^ 20)%Z ->
  finite_field e -> field_size (cvals e) <= B 450 -> fresnelprop_f pw h ex ffft fifft e lam z nx ppm = Ok out ->
  nr out = nr e /\ nc out = nc e /\ finite_field out /\ exists x, propagated (cvals e) (fval lam) (fval z) nx (fval ppm) x /\
    field_dist (cvals out) x <= (3 * eta + B (-47) * IZR (Z.min (nr e) (nc e))) * field_size (cvals e) + B (-890).
Proof.
  intros Hl Hz Hp Z0 Hn HN Fe Se E. destruct (fresnelprop_f_inv e lam z nx ppm out Hl Hz Hp Z0 E) as (N0 & HX & E'). destruct (total_le (Z.min (nr e) (nc e)) (field_size (cvals e)) HN (sqrt_pos _)) as [Hd Ht].
  destruct (propagate_near e nx (fval lam) (fval z) (fval ppm) (fp_array_f h ex lam z nx ppm) (B (-49) * (17 / 10 * IZR (Z.min (nr e) (nc e))) + B (-51))) as (o & x & Eo & A & D & F & P & Dd); auto; try lia.
  - intros k l Hk Hl'. apply factor_near; auto.
  - assert (o = out) by congruence. subst o. split; auto. split; auto. split; auto. exists x. split; auto. lra.
Qed.
Lemma fresnelprop_fp_near e lam z nx ppm fp : usable_sampling lam -> usable_distance z -> usable_sampling ppm -> fval z <> 0 -> (nx <= 2 ^ 20)%Z -> (0 < nr e)%Z -> (0 < nc e)%Z ->
  finite_field e -> field_size (cvals e) <= B 450 -> get_fp_f pw h ex lam z nx ppm = Ok fp ->
  exists out, fresnelprop_fp_f ffft fifft e z nx fp = Ok out /\ nr out = nr e /\ nc out = nc e /\ finite_field out /\ exists x, propagated (cvals e) (fval lam) (fval z) nx (fval ppm) x /\
    field_dist (cvals out) x <= (3 * eta + B (-47) * IZR nx) * field_size (cvals e) + B (-890).
Proof.
  intros Hl Hz Hp Z0 Hn Hr Hc Fe Se E. assert (N0 : (0 < nx)%Z).
  { unfold get_fp_f in E. rewrite (usable_fle _ Hl) in E. cbn [negb guard bind] in E. destruct (Z.ltb_spec 0 nx); [auto|discriminate]. }
  destruct (get_fp_decides pw h ex Hpw lam z nx ppm Hl Hz Hp N0) as (x & A & E'). rewrite E in E'. destruct (Rlt_dec (IZR nx) x) as [|Q]; [discriminate|]. injection E' as ->. apply Rabs_le_inv in A.
  destruct (total_le nx (field_size (cvals e)) ltac:(lia) (sqrt_pos _)) as [Hd Ht].
  destruct (propagate_near e nx (fval lam) (fval z) (fval ppm) (fp_array_f h ex lam z nx ppm) (B (-49) * (17 / 10 * IZR nx) + B (-51))) as (o & y & Eo & A' & D & F & P & Dd); auto; try lia.
  - intros k l Hk Hl'. apply factor_near; auto; try lia. lra.
  - exists o. unfold fresnelprop_fp_f. destruct (Z.ltb_spec 0 nx); [|lia]. cbn [guard bind]. assert (Fz : feq z fzero = false). { rewrite feq_val by (try apply Hz; reflexivity). apply Req_bool_false. exact Z0. }
    rewrite Fz. split; auto. split; auto. split; auto. split; auto. exists y. split; auto. lra.
Qed.
End Lib.
