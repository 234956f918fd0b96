From Coq Require Import ZArith Bool List String Reals Lra Lia Psatz.
From Coquelicot Require Import Complex.
From Verif.Base Require Import Py CSum.
From Verif.Model Require Import ThinFilm.
From Verif.Spec Require Import ThinFilmSpec.
From Verif.Proofs Require Import ThinFilmP ThinFilmQ ThinFilmR.
Import ListNotations.
Open Scope list_scope.
Open Scope R_scope.

(** * Material tables *)
Fixpoint increasing (x : R) (l : list R) : Prop := match l with [] => True | y :: l' => x < y /\ increasing y l' end.
Lemma np_interp_pos pts : forall x0 y0 x, 0 < y0 -> (forall p, In p pts -> 0 < snd p) -> increasing x0 (map fst pts) ->
  0 < np_interp x0 y0 pts x.
Proof.
  induction pts as [|[x1 y1] pts IH]; intros x0 y0 x H0 HP HI; cbn [np_interp]; auto.
  cbn [map fst increasing] in HI. destruct HI as [HI1 HI2]. assert (Y1 := HP _ (or_introl eq_refl)). cbn [snd] in Y1.
  destruct (Rle_dec x x0); auto. destruct (Rle_dec x x1).
  - replace (y0 + (y1 - y0) / (x1 - x0) * (x - x0)) with ((y0 * (x1 - x) + y1 * (x - x0)) / (x1 - x0)) by (field; lra).
    apply Rdiv_lt_0_compat; nra.
  - apply IH; auto. intros p Hp. apply HP. now right.
Qed.
Definition material_ok (m : material) : Prop :=
  (forall r, In r (mat_first m :: mat_rest m) -> 0 < row_n r /\ 0 < row_k r) /\ increasing (row_x (mat_first m)) (map row_x (mat_rest m)).
Lemma index_ok m x : material_ok m -> 0 < fst (index_of m x) /\ snd (index_of m x) < 0.
Proof.
  intros [H1 H2]. unfold index_of. cbn [fst snd]. split.
  - apply np_interp_pos.
    + apply H1. now left.
    + intros p Hp. apply in_map_iff in Hp. destruct Hp as [r [<- Hr]]. apply (H1 r). now right.
    + rewrite map_map. exact H2.
  - apply Ropp_lt_gt_0_contravar. apply Rlt_gt. apply np_interp_pos.
    + apply H1. now left.
    + intros p Hp. apply in_map_iff in Hp. destruct Hp as [r [<- Hr]]. apply (H1 r). now right.
    + rewrite map_map. exact H2.
Qed.
Lemma titanium_ok : material_ok titanium.
Proof.
  split.
  - apply Forall_forall. unfold titanium. cbn [mat_first mat_rest].
    repeat (apply Forall_cons; [unfold row_n, row_k; cbn [fst snd]; split; lra|]). constructor.
  - unfold titanium, row_x. cbn [mat_first mat_rest map fst increasing]. repeat (split; [lra|]). exact I.
Qed.
Lemma nickel_ok : material_ok nickel.
Proof.
  split.
  - apply Forall_forall. unfold nickel. cbn [mat_first mat_rest].
    repeat (apply Forall_cons; [unfold row_n, row_k; cbn [fst snd]; split; lra|]). constructor.
  - unfold nickel, row_x. cbn [mat_first mat_rest map fst increasing]. repeat (split; [lra|]). exact I.
Qed.
Lemma silica_ok L : 4 / 100 <= L <= 16 -> exists ns, fused_silica L = Some ns /\ 1 < ns.
Proof.
  intros HL. unfold fused_silica, sellmeier.
  destruct (Req_EM_T _ 0) as [E|_]; [lra|]. destruct (Req_EM_T _ 0) as [E|_]; [lra|]. destruct (Req_EM_T _ 0) as [E|_]; [lra|].
  set (v := 1 + _ + _ + _).
  assert (Hv : 1 < v).
  { unfold v. set (A1 := 341870247 / 500000000). set (B1 := 460352869/100000000000). set (A2 := 420323613/1000000000).
    set (B2 := 16746107 / 1250000000). set (A3 := 14625687/25000000). set (B3 := 161233183/2500000).
    assert (Q1 : A1 <= A1 * L / (L - B1)).
    { apply (Rcomplements.Rle_div_r A1 (A1 * L) (L - B1)); unfold A1, B1; lra. }
    assert (Q2 : 0 <= A2 * L / (L - B2)).
    { apply Rcomplements.Rdiv_le_0_compat; [unfold A2; nra|unfold B2; lra]. }
    assert (Q3 : - (1/4) <= A3 * L / (L - B3)).
    { replace (A3 * L / (L - B3)) with (- (A3 * L / (B3 - L))) by (field; unfold B3; lra).
      apply Ropp_le_contravar. apply (Rcomplements.Rle_div_l (A3 * L) (1 / 4) (B3 - L)); unfold A3, B3; lra. }
    unfold A1 in *. lra. }
  destruct (Rle_dec 0 v); [|lra]. exists (sqrt v). split; auto. rewrite <- sqrt_1. apply sqrt_lt_1; lra.
Qed.
Lemma pmgi_ok x : 0 < x -> 1 < n_pmgi x.
Proof.
  intros H. unfold n_pmgi. assert (0 < 5176 / 1000000 / x ^ 2) by (apply Rdiv_lt_0_compat; [lra|apply pow_lt; auto]).
  assert (0 < 2105 / 10000000 / x ^ 4) by (apply Rdiv_lt_0_compat; [lra|apply pow_lt; auto]). lra.
Qed.

(** * Occulter pixels *)
Definition film_data_ok (fd : film_data) : Prop := material_ok (fd_ti fd) /\ material_ok (fd_ni fd).
Lemma not_grazing_real x theta : 0 <= theta -> theta < PI / 2 -> 1 <= x -> ~ grazing 1 theta (RtoC x).
Proof.
  intros H0 H1 Hx E. unfold grazing in E. rewrite <- RtoC_mult in E. apply RtoC_inj in E.
  assert (C0 : 0 < cos theta) by (apply cos_gt_0; lra). assert (S := sin2_cos2 theta). unfold Rsqr in S. nra.
Qed.
Lemma not_grazing_metal n theta : 0 < fst n -> snd n < 0 -> ~ grazing 1 theta n.
Proof.
  intros H1 H2 E. assert (X := f_equal snd E). unfold Cmult in X. cbn [snd RtoC] in X. nra.
Qed.
Lemma pixel_solve fd lam theta t d0 nsub dti dni dpm : film_data_ok fd -> 0 < lam -> 0 <= theta -> theta < PI / 2 -> 0 < nsub ->
  0 <= dti -> 0 <= dni -> 0 <= dpm ->
  exists refl trans rr tc,
  solver [RtoC 1; RtoC 1; RtoC (n_pmgi (lam * 1000000)); index_of (fd_ni fd) (lam * 1000000000); index_of (fd_ti fd) (lam * 1000000000); RtoC nsub]
    [d0 - dpm - dni - dti; dpm; dni; dti] theta lam t = Ok (Some (refl, trans, rr, Some tc)) /\ Cmod tc ^ 2 + Cmod rr ^ 2 <= 1.
Proof.
  intros [Hti Hni] Hl H0 H1 Hs D1 D2 D3.
  set (films := [(RtoC 1, d0 - dpm - dni - dti); (RtoC (n_pmgi (lam * 1000000)), dpm); (index_of (fd_ni fd) (lam * 1000000000), dni); (index_of (fd_ti fd) (lam * 1000000000), dti)]).
  destruct (pv_solve 1 theta lam t Rlt_0_1 H0 H1 Hl films (RtoC nsub)) as [refl [trans [rr [tc [E [E1 [E2 [E3 _]]]]]]]].
  - assert (P := pmgi_ok (lam * 1000000) ltac:(lra)).
    assert (I1 := index_ok (fd_ni fd) (lam * 1000000000) Hni). assert (I2 := index_ok (fd_ti fd) (lam * 1000000000) Hti).
    intros p [<-|[<-|[<-|[<-|[]]]]]; cbn [fst snd].
    + split; [split; cbn; lra|]. split; [apply not_grazing_real; auto; lra|]. right. split; cbn; lra.
    + split; [split; cbn; lra|]. split; [apply not_grazing_real; auto; lra|]. left; auto.
    + split; [split; lra|]. split; [apply not_grazing_metal; tauto|]. left; auto.
    + split; [split; lra|]. split; [apply not_grazing_metal; tauto|]. left; auto.
  - split; cbn; lra.
  - exists refl, trans, rr, tc. split; [exact E|lra].
Qed.
Lemma mean_mod a b : Cmod (cmean a b) ^ 2 <= (Cmod a ^ 2 + Cmod b ^ 2) / 2.
Proof.
  rewrite !Cmod_sqr. unfold cmean, Cdiv. rewrite <- RtoC_inv by lra. destruct a as [a1 a2], b as [b1 b2].
  unfold Cmult, Cplus, RtoC. cbn [fst snd]. assert (0 <= (a1 - b1) * (a1 - b1)) by apply Rle_0_sqr. assert (0 <= (a2 - b2) * (a2 - b2)) by apply Rle_0_sqr. lra.
Qed.
Lemma conj_mod z : Cmod (Cconj z) ^ 2 = Cmod z ^ 2.
Proof. rewrite !Cmod_sqr. unfold Cconj. cbn [fst snd]. ring. Qed.
Lemma pixel_passive fd lam theta d0 pol opd nsub dti dni dpm : film_data_ok fd -> 0 < lam -> 0 <= theta -> theta < PI / 2 -> 0 < nsub ->
  0 <= dti -> 0 <= dni -> 0 <= dpm ->
  exists tc rc, occulter_pixel fd lam theta d0 pol opd nsub dti dni dpm = Ok (Some tc, Some rc) /\ Cmod tc ^ 2 + Cmod rc ^ 2 <= 1.
Proof.
  intros Hfd Hl H0 H1 Hs D1 D2 D3. unfold occulter_pixel.
  assert (G := fun t => pixel_solve fd lam theta t d0 nsub dti dni dpm Hfd Hl H0 H1 Hs D1 D2 D3).
  assert (CM : forall z, Cmod (if opd then z else Cconj z) ^ 2 = Cmod z ^ 2) by (intros z; destruct opd; auto; apply conj_mod).
  destruct (Z.eqb pol 2).
  - destruct (G false) as [refl [trans [rr [tc [-> A]]]]]. destruct (G true) as [refl' [trans' [rr' [tc' [-> A']]]]].
    cbn [bind fst snd]. eexists. eexists. split; [reflexivity|]. rewrite !CM.
    assert (M1 := mean_mod tc tc'). assert (M2 := mean_mod rr rr'). lra.
  - destruct (G (negb (Z.eqb pol 0))) as [refl [trans [rr [tc [-> A]]]]].
    cbn [bind fst snd]. eexists. eexists. split; [reflexivity|]. rewrite !CM. auto.
Qed.
Lemma each_ok {A B} (f : A -> res B) (P : B -> Prop) l : (forall x, In x l -> exists y, f x = Ok y /\ P y) ->
  exists ys, each f l = Ok ys /\ List.length ys = List.length l /\ (forall y, In y ys -> P y).
Proof.
  induction l as [|x l IH]; intros H.
  - exists []. repeat split; auto. intros y [].
  - destruct (H x (or_introl eq_refl)) as [y [E Py]]. destruct IH as [ys [E' [L Q]]]; [intros; apply H; now right|].
    exists (y :: ys). cbn [each]. rewrite E. cbn [bind]. rewrite E'. cbn [bind List.length]. repeat split; auto.
    intros z [<-|Hz]; auto.
Qed.
Definition occulter_checks (lam aoi : R) (tTi tNi tPMGI : list R) (d0 : R) (pol : Z) (substrate : string) : Prop :=
  0 < lam /\ 0 <= aoi /\ aoi < 90 /\ List.length tTi = List.length tNi /\ List.length tNi = List.length tPMGI /\ 0 < d0 /\
  (pol = 0 \/ pol = 1 \/ pol = 2)%Z /\ (substrate = "FS" \/ substrate = "FUSEDSILICA")%string.
Lemma occulter_unfold fd lam aoi tTi tNi tPMGI d0 pol opd substrate :
  (occulter_checks lam aoi tTi tNi tPMGI d0 pol substrate ->
   calc_complex_occulter fd lam aoi tTi tNi tPMGI d0 pol opd substrate =
   (do out <- each (fun p : R * R * R =>
      match fd_fs fd ((lam * 1000000) * (lam * 1000000)) with
      | Some nsub => occulter_pixel fd lam (aoi * (PI / 180)) d0 pol opd nsub (fst (fst p)) (snd (fst p)) (snd p)
      | None => Ok (None, None)
      end) (List.combine (List.combine tTi tNi) tPMGI); Ok (map fst out, map snd out))) /\
  (~ occulter_checks lam aoi tTi tNi tPMGI d0 pol substrate ->
   calc_complex_occulter fd lam aoi tTi tNi tPMGI d0 pol opd substrate = Err ValueError).
Proof.
  unfold occulter_checks, calc_complex_occulter, lt_real, nonneg_real, accepted. split.
  - intros (A & B & C & D & E & F & G & H).
    destruct (Rlt_dec 0 lam); [|contradiction]. destruct (Rle_dec 0 aoi); [|contradiction]. destruct (Rlt_dec aoi 90); [|contradiction].
    rewrite D, E, Nat.eqb_refl. destruct (Rlt_dec 0 d0); [|contradiction].
    destruct G as [-> | [-> | ->]]; destruct H as [-> | ->]; reflexivity.
  - intros N.
    destruct (Rlt_dec 0 lam); [|reflexivity]. destruct (Rle_dec 0 aoi); [|reflexivity]. destruct (Rlt_dec aoi 90); [|reflexivity].
    destruct (Nat.eqb_spec (List.length tTi) (List.length tNi)) as [E1|]; [|reflexivity].
    destruct (Nat.eqb_spec (List.length tNi) (List.length tPMGI)) as [E2|]; [|reflexivity].
    destruct (Rlt_dec 0 d0); [|reflexivity]. cbn [andb guard bind].
    destruct ((pol =? 0)%Z || (pol =? 1)%Z || (pol =? 2)%Z) eqn:EP; [|reflexivity]. cbn [guard bind].
    destruct (String.eqb_spec substrate "FS") as [->|Nf]; [exfalso|].
    + apply N. repeat split; auto. rewrite !orb_true_iff, !Z.eqb_eq in EP. tauto.
    + destruct (String.eqb_spec substrate "FUSEDSILICA") as [->|Nf2]; [exfalso|].
      * apply N. repeat split; auto. rewrite !orb_true_iff, !Z.eqb_eq in EP. tauto.
      * cbn [orb]. match goal with |- bind (guard ?c _) _ = _ => destruct c end; reflexivity.
Qed.
Lemma in_combine3 {A} (l1 l2 l3 : list A) p : In p (List.combine (List.combine l1 l2) l3) ->
  In (fst (fst p)) l1 /\ In (snd (fst p)) l2 /\ In (snd p) l3.
Proof.
  destruct p as [[a b] c]. intros H. cbn. assert (H1 := in_combine_l _ _ _ _ H). assert (H2 := in_combine_r _ _ _ _ H).
  assert (H3 := in_combine_l _ _ _ _ H1). assert (H4 := in_combine_r _ _ _ _ H1). auto.
Qed.
Lemma occulter_passive_lem lam aoi tTi tNi tPMGI d0 pol opd substrate :
  occulter_checks lam aoi tTi tNi tPMGI d0 pol substrate -> 2 / 10 <= lam * 1000000 <= 4 ->
  (forall x, In x tTi -> 0 <= x) -> (forall x, In x tNi -> 0 <= x) -> (forall x, In x tPMGI -> 0 <= x) ->
  exists out, calc_complex_occulter shipped lam aoi tTi tNi tPMGI d0 pol opd substrate = Ok (map fst out, map snd out) /\
    List.length out = List.length tNi /\
    (forall p, In p out -> exists tc rc, p = (Some tc, Some rc) /\ Cmod tc ^ 2 + Cmod rc ^ 2 <= 1).
Proof.
  intros H HL D1 D2 D3. rewrite (proj1 (occulter_unfold _ _ _ _ _ _ _ _ _ _) H).
  destruct H as (A & B & C & D & E & F & G & S).
  destruct (silica_ok (lam * 1000000 * (lam * 1000000))) as [ns [Es Hs]]; [nra|].
  change (fd_fs shipped) with fused_silica. rewrite Es.
  destruct (each_ok (fun p : R * R * R => occulter_pixel shipped lam (aoi * (PI / 180)) d0 pol opd ns (fst (fst p)) (snd (fst p)) (snd p))
    (fun y => exists tc rc, y = (Some tc, Some rc) /\ Cmod tc ^ 2 + Cmod rc ^ 2 <= 1) (List.combine (List.combine tTi tNi) tPMGI)) as [ys [Ey [L Q]]].
  - intros p Hp. apply in_combine3 in Hp. destruct Hp as [P1 [P2 P3]].
    destruct (pixel_passive shipped lam (aoi * (PI / 180)) d0 pol opd ns (fst (fst p)) (snd (fst p)) (snd p)) as [tc [rc [E1 E2]]]; auto; try lra.
    + split; [apply titanium_ok|apply nickel_ok].
    + assert (P := PI_RGT_0). apply Rmult_le_pos; lra.
    + assert (P := PI_RGT_0). nra.
    + exists (Some tc, Some rc). split; auto. exists tc, rc. auto.
  - exists ys. rewrite Ey. cbn [bind]. split; [reflexivity|]. split; auto.
    rewrite L, !combine_length, D, <- E, !Nat.min_id. reflexivity.
Qed.
(** Phase convention. *)
Definition oconj (z : option C) : option C := match z with Some v => Some (Cconj v) | None => None end.
Lemma pixel_opd fd lam theta d0 pol nsub dti dni dpm :
  occulter_pixel fd lam theta d0 pol false nsub dti dni dpm =
  match occulter_pixel fd lam theta d0 pol true nsub dti dni dpm with Ok (a, b) => Ok (oconj a, oconj b) | Err e => Err e end.
Proof.
  unfold occulter_pixel. destruct (Z.eqb pol 2).
  - destruct (solver _ _ theta lam false) as [o|]; auto. cbn [bind]. destruct (solver _ _ theta lam true) as [o'|]; auto. cbn [bind].
    destruct o as [[[[? ?] ?] [?|]]|]; destruct o' as [[[[? ?] ?] [?|]]|]; reflexivity.
  - destruct (solver _ _ theta lam _) as [o|]; auto. cbn [bind]. destruct o as [[[[? ?] ?] [?|]]|]; reflexivity.
Qed.
Lemma occulter_opd_lem fd lam aoi tTi tNi tPMGI d0 pol substrate :
  calc_complex_occulter fd lam aoi tTi tNi tPMGI d0 pol false substrate =
  match calc_complex_occulter fd lam aoi tTi tNi tPMGI d0 pol true substrate with
  | Ok (ts, rs) => Ok (map oconj ts, map oconj rs) | Err e => Err e end.
Proof.
  destruct (Classical_Prop.classic (occulter_checks lam aoi tTi tNi tPMGI d0 pol substrate)) as [H|H].
  2:{ rewrite !(proj2 (occulter_unfold _ _ _ _ _ _ _ _ _ _) H). reflexivity. }
  rewrite !(proj1 (occulter_unfold _ _ _ _ _ _ _ _ _ _) H). clear H.
  generalize (List.combine (List.combine tTi tNi) tPMGI). intros l.
  match goal with |- bind (each ?f l) _ = match bind (each ?g l) _ with _ => _ end => set (F := f); set (G := g) end.
  assert (X : each F l = match each G l with Ok out => Ok (map (fun p => (oconj (fst p), oconj (snd p))) out) | Err e => Err e end).
  { induction l as [|x l IH]; auto. cbn [each]. rewrite IH.
    assert (Y : F x = match G x with Ok (a, b) => Ok (oconj a, oconj b) | Err e => Err e end).
    { unfold F, G. destruct (fd_fs fd _); [apply pixel_opd|reflexivity]. }
    rewrite Y. destruct (G x) as [[a b]|]; auto. cbn [bind]. destruct (each G l); reflexivity. }
  rewrite X. destruct (each G l) as [out|]; auto. cbn [bind]. rewrite !map_map. reflexivity.
Qed.

(** * One boundary, in angles *)
Lemma fresnel_angles x0 x1 theta theta1 lam t : 0 < x0 -> 0 < x1 -> 0 <= theta -> theta < PI / 2 -> 0 < lam ->
  - PI / 2 < theta1 < PI / 2 -> x0 * sin theta = x1 * sin theta1 ->
  let a := if (t : bool) then x1 * cos theta else x0 * cos theta in
  let b := if t then x0 * cos theta1 else x1 * cos theta1 in
  solver [RtoC x0; RtoC x1] [] theta lam t =
    Ok (Some ((((a - b) / (a + b)) ^ 2), 4 * a * b / (a + b) ^ 2, RtoC ((a - b) / (a + b)), Some (RtoC (2 * sqrt (a * b) / (a + b))))).
Proof.
  intros H0 H1 Ht0 Ht1 Hl Ha Snell a b.
  assert (C0 : 0 < cos theta) by (apply cos_gt_0; lra). assert (C1 : 0 < cos theta1) by (apply cos_gt_0; lra).
  assert (S1 := sin2_cos2 theta1). unfold Rsqr in S1.
  assert (PA : 0 < a) by (unfold a; destruct t; apply Rmult_lt_0_compat; auto).
  assert (PB : 0 < b) by (unfold b; destruct t; apply Rmult_lt_0_compat; auto).
  assert (S := solver_airy x0 theta lam t [] (RtoC x1) (RtoC (x1 * cos theta1)) H0 Ht0 Ht1 Hl).
  cbv zeta in S. cbn [map app] in S. rewrite S; clear S.
  - cbn [airy fst snd]. set (first := (RtoC x0, RtoC (x0 * cos theta), 0) : medium). set (final := (RtoC x1, RtoC (x1 * cos theta1), 0) : medium).
    assert (A : exists k, 0 < k /\ admittance t first = RtoC (k * a) /\ admittance t final = RtoC (k * b)).
    { unfold admittance, first, final, m_n, m_q, a, b. cbn [fst snd]. destruct t.
      - exists (/ (x0 * x1)). split; [apply Rinv_0_lt_compat; nra|]. rewrite <- !RtoC_mult, <- !RtoC_div by nra.
        split; f_equal; field; lra.
      - exists 1. split; [lra|]. split; f_equal; ring. }
    destruct A as [k [Hk [A1 A2]]]. rewrite A1, A2.
    assert (KA : 0 < k * a) by (apply Rmult_lt_0_compat; auto). assert (KB : 0 < k * b) by (apply Rmult_lt_0_compat; auto).
    assert (Pf : pass lam final = RtoC 1).
    { unfold pass, final, m_d, m_q; cbn [fst snd]; rewrite Rmult_0_r, Cmult_0_l; cbn [fst snd RtoC].
      rewrite exp_0, cos_0, sin_0; apply C_eq; cbn; ring. }
    rewrite Pf.
    assert (Fr : fresnel_r (RtoC (k * a)) (RtoC (k * b)) = RtoC ((a - b) / (a + b))).
    { unfold fresnel_r. rewrite <- RtoC_minus, <- RtoC_plus, <- RtoC_div by lra. f_equal. field. split; lra. }
    assert (Ft : fresnel_t (RtoC (k * a)) (RtoC (k * b)) = RtoC (2 * a / (a + b))).
    { unfold fresnel_t. rewrite <- RtoC_mult, <- RtoC_plus, <- RtoC_div by lra. f_equal. field. split; lra. }
    rewrite Fr, Ft.
    assert (Pr : fst (RtoC (k * b) / RtoC (k * a))%C = b / a) by (rewrite <- RtoC_div by lra; cbn [fst RtoC]; field; lra).
    rewrite Pr.
    replace ((RtoC ((a - b) / (a + b)) + 0 * (1 * 1)) / (1 + RtoC ((a - b) / (a + b)) * (0 * (1 * 1))))%C with (RtoC ((a - b) / (a + b))) by (field; intros X; apply RtoC_inj in X; lra).
    replace (RtoC (2 * a / (a + b)) * (1 * 1) / (1 + RtoC ((a - b) / (a + b)) * (0 * (1 * 1))))%C with (RtoC (2 * a / (a + b))) by (field; intros X; apply RtoC_inj in X; lra).
    rewrite !Cmod_R, !pow2_abs, <- RtoC_mult.
    assert (E1 : b / a * (2 * a / (a + b)) ^ 2 = 4 * a * b / (a + b) ^ 2) by (field; split; lra).
    assert (E2 : sqrt (b / a) * (2 * a / (a + b)) = 2 * sqrt (a * b) / (a + b)).
    { assert (X : sqrt (b / a) * a = sqrt (a * b)).
      { replace (a * b) with (b / a * (a * a)) by (field; lra). rewrite sqrt_mult; [|apply Rlt_le, Rdiv_lt_0_compat; auto|nra].
        rewrite sqrt_square by lra. reflexivity. }
      rewrite <- X. field. lra. }
    rewrite E1, E2. reflexivity.
  - intros m [].
  - split; cbn; lra.
  - split.
    + unfold normal_index. rewrite <- !RtoC_mult, <- RtoC_minus. f_equal. rewrite Snell. nra.
    + left. cbn. nra.
  - cbn. nra.
Qed.

(** * Total reflection *)
Lemma total_reflection_lem x0 theta lam t films x1 : 0 < x0 -> 0 <= theta -> theta < PI / 2 -> 0 < lam ->
  (forall p, In p films -> transparent (fst p) /\ ~ grazing x0 theta (fst p)) -> 0 < x1 -> x1 <= x0 * sin theta ->
  exists rr tc, solver (stack_n x0 films (RtoC x1)) (stack_d films) theta lam t = Ok (Some (1, 0, rr, Some tc)) /\ Cmod rr = 1 /\ tc = 0%C.
Proof.
  intros Hx Ht0 Ht1 Hl Hf H1 Hc.
  destruct (pv_solve x0 theta lam t Hx Ht0 Ht1 Hl films (RtoC x1)) as [refl [trans [rr [tc [E [E1 [E2 [_ [E4 E5]]]]]]]]].
  - intros p Hp. destruct (Hf p Hp) as [A B]. split; [destruct A; split; lra|]. split; auto.
  - split; cbn; lra.
  - assert (T : trans = 0).
    { apply E5. destruct (kzz_parts x0 theta lam Hl t (RtoC x1) 0) as [p [r [u [v [E' [P [I [PR [U [V [V0 [D [U0 [V1 Ez]]]]]]]]]]]]]]; [split; cbn; lra|].
      destruct (kz_parts x0 theta lam Hl t (RtoC x1) 0) as [p' [r' [F' [P' [Q1 [Q2 I']]]]]]; [split; cbn; lra|].
      rewrite E' in F'. injection F' as Fp Fr. assert (p' = p) by lra. assert (r' = r) by lra. subst p' r'. cbn [fst snd RtoC] in Q1, Q2.
      specialize (V1 eq_refl). subst v. set (K := 2 * PI / lam) in *. assert (HK : 0 < K) by (apply K_pos; auto).
      assert (PR0 : p * r = 0) by lra.
      assert (P0 : p = 0).
      { assert (p * p - r * r <= 0).
        { rewrite Q1. replace (_ - _) with (K * K * (x1 * x1 - (x0 * sin theta) * (x0 * sin theta))) by ring.
          assert (x1 * x1 <= (x0 * sin theta) * (x0 * sin theta)) by (apply Rmult_le_compat; lra).
          assert (0 < K * K) by nra. nra. }
        apply Rmult_integral in PR0. destruct PR0 as [|Z]; auto. subst r. nra. }
      rewrite Ez, P0. destruct t; cbn [fst]; [|lra]. unfold Rdiv. ring. }
    assert (R1 : refl = 1).
    { rewrite T in E4. rewrite <- (Rplus_0_r refl). apply E4; [intros p Hp; apply (Hf p Hp)|]. split; cbn; lra. }
    exists rr, tc. rewrite E, T, R1. split; [reflexivity|]. rewrite R1 in E1. rewrite T in E2. split.
    + assert (0 <= Cmod rr) by apply Cmod_ge_0. nra.
    + apply Cmod_eq_0. assert (0 <= Cmod tc) by apply Cmod_ge_0. nra.
Qed.

(** * Exactly grazing films *)
Lemma grazing_lem x0 theta lam t films final p : 0 < x0 -> 0 <= theta -> theta < PI / 2 -> 0 < lam ->
  In p films -> passive (fst p) -> grazing x0 theta (fst p) ->
  solver (stack_n x0 films final) (stack_d films) theta lam t = Ok None.
Proof.
  intros Hx Ht0 Ht1 Hl Hin Hp Hg. unfold stack_n, stack_d. rewrite solver_eq by auto. f_equal. unfold solve_layers.
  replace (stack_finite t (layers (RtoC x0) theta lam t films final)) with false; [reflexivity|]. symmetry.
  unfold stack_finite. apply andb_false_intro2.
  destruct (in_split _ _ Hin) as [f1 [f2 ->]].
  destruct (layers_mid (RtoC x0) final theta lam t f1 f2 []) as [pre [a [b [post [_ G]]]]].
  change (f1 ++ p :: f2) with (f1 ++ [p] ++ f2). rewrite G. cbn [map app].
  rewrite pairs_app, forallb_app. apply andb_false_intro2.
  match goal with |- context [pairs (a :: ?m :: b :: post)] => change (pairs (a :: m :: b :: post)) with ((a, m) :: (m, b) :: pairs (b :: post)); set (M := m) end.
  cbn [forallb]. apply andb_false_intro2. apply andb_false_intro1. unfold boundary_finite. cbn [fst snd].
  replace (Ceqb (l_kzz M) 0) with true; [reflexivity|]. symmetry. apply Ceqb_true. unfold M. apply medium_zero; auto.
Qed.

(** * Reflection phase beyond the critical angle *)
Lemma two_layer_r x0 theta lam t n1 o : 0 <= theta -> theta < PI / 2 -> 0 < lam ->
  solver [RtoC x0; n1] [] theta lam t = Ok (Some o) ->
  let k0 := l_kzz (mk_layer (RtoC x0) theta lam t (RtoC x0) 0) in let k1 := l_kzz (mk_layer (RtoC x0) theta lam t n1 0) in
  refl_amp o = ((k0 - k1) / (k0 + k1))%C.
Proof.
  intros Ht0 Ht1 Hl H k0 k1. assert (E := solver_eq (RtoC x0) [] n1 theta lam t Ht0 Ht1 Hl). cbn [map app] in E. rewrite E in H.
  injection H as H. unfold solve_layers in H. unfold layers in H. cbn [map app] in H.
  set (a := mk_layer (RtoC x0) theta lam t (RtoC x0) 0) in *. set (b := mk_layer (RtoC x0) theta lam t n1 0) in *.
  destruct (stack_finite t [a; b]) eqn:F; [|discriminate].
  destruct (negb (Ceqb (m00 (stack_matrix [a; b])) 0)) eqn:N; [|discriminate]. cbn [andb] in H.
  match type of H with Some ?x = Some o => assert (HH : refl_amp x = refl_amp o) by congruence end. rewrite <- HH. clear H HH. unfold refl_amp at 1. cbn [fst snd].
  unfold stack_finite in F. apply andb_prop in F. destruct F as [_ F]. cbn in F. rewrite andb_true_r in F.
  unfold boundary_finite in F. cbn [fst snd] in F. apply andb_prop in F. destruct F as [F1 F2].
  assert (X : forall z w : C, negb (Ceqb z w) = true -> z <> w).
  { intros z w Q E'. rewrite (proj2 (Ceqb_true z w) E') in Q. discriminate. }
  apply X in F1. apply X in F2. apply X in N.
  rewrite stack_cons, stack_one, mmul_1_r. unfold film_matrix. cbn [m10 m00].
  change (l_d a) with 0.
  replace (- Ci * l_kz a * 0)%C with (RtoC 0) by ring. replace (Ci * l_kz a * 0)%C with (RtoC 0) by ring. rewrite cexp_0, half2.
  fold k0 k1 in F1, F2 |- *. change (l_kzz a) with k0. change (l_kzz b) with k1.
  change (l_kzz a) with k0 in F1, F2. change (l_kzz b) with k1 in F2. assert (T := ne2). field. auto.
Qed.
Lemma im_ri c u v : c > 0 -> (RtoC (- c) + (u, v))%C <> 0%C ->
  exists m, 0 < m /\ snd ((RtoC (- c) - (u, v)) / (RtoC (- c) + (u, v)))%C = m * v.
Proof.
  intros Hc N.
  assert (D : 0 < (- c + u) * (- c + u) + v * v).
  { assert (S1 := Rle_0_sqr (- c + u)). assert (S2 := Rle_0_sqr v). unfold Rsqr in S1, S2.
    destruct (Req_dec v 0) as [Zv|Nv]; [|assert (Q := Rlt_0_sqr v Nv); unfold Rsqr in Q; lra]. destruct (Req_dec (- c + u) 0) as [Z|Nz]; [|assert (Q := Rlt_0_sqr _ Nz); unfold Rsqr in Q; lra].
    exfalso. apply N. apply C_eq; unfold Cplus, RtoC; cbn [fst snd]; lra. }
  exists (2 * c / ((- c + u) * (- c + u) + v * v)). split; [apply Rdiv_lt_0_compat; lra|].
  unfold Cdiv, Cinv, Cminus, Cmult, Cplus, Copp, RtoC. cbn [fst snd]. field. nra.
Qed.
Lemma phase_jump_lem x0 x1 theta lam : 0 < x1 -> x1 < x0 * sin theta -> 0 < x0 -> 0 <= theta -> theta < PI / 2 -> 0 < lam ->
  (exists o, solver [RtoC x0; RtoC x1] [] theta lam false = Ok (Some o) /\ snd (refl_amp o) < 0) /\
  (forall eps, 0 < eps -> exists o, solver [RtoC x0; (x1, - eps)] [] theta lam false = Ok (Some o) /\ 0 < snd (refl_amp o)).
Proof.
  intros H1 Hc Hx Ht0 Ht1 Hl.
  assert (G : forall n, passive n -> exists o, solver [RtoC x0; n] [] theta lam false = Ok (Some o)).
  { intros n Hn. destruct (pv_solve x0 theta lam false Hx Ht0 Ht1 Hl [] n) as [refl [trans [rr [tc [E _]]]]]; auto; [intros p []|].
    exists (refl, trans, rr, Some tc). exact E. }
  assert (S : forall n, passive n -> exists o m, solver [RtoC x0; n] [] theta lam false = Ok (Some o) /\ 0 < m /\
    snd (refl_amp o) = m * snd (l_kz (mk_layer (RtoC x0) theta lam false n 0))).
  { intros n Hn. destruct (G n Hn) as [o Ho]. assert (R := two_layer_r x0 theta lam false n o Ht0 Ht1 Hl Ho). cbv zeta in R.
    destruct (incident_kzz x0 theta lam Hx Ht0 Ht1 Hl false 0) as [c [Hcc Ec]]. rewrite Ec in R.
    change (l_kzz (mk_layer (RtoC x0) theta lam false n 0)) with (l_kz (mk_layer (RtoC x0) theta lam false n 0)) in R.
    assert (DW := medium_down x0 theta lam Hl false n 0 Hn).
    change (l_kzz (mk_layer (RtoC x0) theta lam false n 0)) with (l_kz (mk_layer (RtoC x0) theta lam false n 0)) in DW.
    destruct (l_kz (mk_layer (RtoC x0) theta lam false n 0)) as [u v].
    destruct (im_ri c u v Hcc) as [m [Hm Em]].
    { apply down_neq0, down_plus; auto. left. cbn. lra. }
    exists o, m. rewrite R, Em. auto. }
  set (K := 2 * PI / lam). assert (HK : 0 < K) by (apply K_pos; auto).
  split.
  - destruct (S (RtoC x1)) as [o [m [Ho [Hm E]]]]; [split; cbn; lra|]. exists o. split; auto. rewrite E.
    destruct (kz_parts x0 theta lam Hl false (RtoC x1) 0) as [p [r [F [P [Q1 [Q2 I]]]]]]; [split; cbn; lra|]. rewrite F. cbn [fst snd RtoC] in *.
    fold K in Q1, Q2.
    assert (W : p * p - r * r < 0).
    { rewrite Q1. replace (_ - _) with (K * K * (x1 * x1 - (x0 * sin theta) * (x0 * sin theta))) by ring.
      assert (x1 * x1 < (x0 * sin theta) * (x0 * sin theta)) by (apply Rmult_le_0_lt_compat; lra).
      assert (0 < K * K) by nra. nra. }
    assert (PR0 : p * r = 0) by lra. assert (r <> 0) by (intros ->; nra).
    assert (p = 0) by (apply Rmult_integral in PR0; tauto). specialize (I H0). assert (0 < r) by lra. nra.
  - intros eps He. destruct (S (x1, - eps)) as [o [m [Ho [Hm E]]]]; [split; cbn; lra|]. exists o. split; auto. rewrite E.
    destruct (kz_parts x0 theta lam Hl false (x1, - eps) 0) as [p [r [F [P [Q1 [Q2 I]]]]]]; [split; cbn; lra|]. rewrite F. cbn [fst snd] in *.
    fold K in Q1, Q2. assert (W : 2 * p * r < 0).
    { rewrite Q2. assert (0 < K * K) by nra. assert (0 < x1 * eps) by nra. nra. }
    assert (r < 0) by nra. nra.
Qed.

(** * Statements for the property file *)
Lemma solver_domain_lem n d0 theta lam t :
  (solver n d0 theta lam t = Err ValueError <->
     ~ (List.length n = (List.length d0 + 2)%nat /\ 0 <= theta /\ theta < PI / 2 /\ 0 < lam)) /\
  (forall e, solver n d0 theta lam t = Err e -> e = ValueError).
Proof.
  unfold solver, nonneg_real, lt_real.
  destruct (Z.eqb_spec (Z.of_nat (List.length d0)) (Z.of_nat (List.length n) - 2)) as [E|E]; cbn [guard bind].
  2:{ split; [split; auto; intros _ [H _]; lia|]. intros e H. now injection H. }
  destruct (Rle_dec 0 theta); cbn [guard bind]; [|split; [split; auto; intros _ H; tauto|]; intros e H; now injection H].
  destruct (Rlt_dec theta (PI / 2)); cbn [guard bind]; [|split; [split; auto; intros _ H; tauto|]; intros e H; now injection H].
  destruct (Rlt_dec 0 lam); cbn [guard bind]; [|split; [split; auto; intros _ H; tauto|]; intros e H; now injection H].
  match goal with |- context [if ?c then _ else _] => destruct c end;
    (split; [split; [discriminate|intros H; exfalso; apply H; repeat split; auto; lia]|discriminate]).
Qed.
Lemma zero_passive_lem x0 theta lam t f1 f2 m final : 0 < x0 -> 0 <= theta -> theta < PI / 2 -> 0 < lam ->
  (forall p, In p (f1 ++ f2) -> passive (fst p) /\ ~ grazing x0 theta (fst p) /\ 0 <= snd p) -> passive final ->
  passive m -> ~ grazing x0 theta m ->
  solver (stack_n x0 (f1 ++ (m, 0) :: f2) final) (stack_d (f1 ++ (m, 0) :: f2)) theta lam t =
  solver (stack_n x0 (f1 ++ f2) final) (stack_d (f1 ++ f2)) theta lam t.
Proof.
  intros Hx H0 H1 Hl Hf Hfin Hm Hg.
  destruct (pv_solve x0 theta lam t Hx H0 H1 Hl (f1 ++ f2) final) as [a1 [a2 [a3 [a4 [E _]]]]]; auto.
  { intros p Hp. destruct (Hf p Hp) as [A [B C]]. auto. }
  destruct (pv_solve x0 theta lam t Hx H0 H1 Hl (f1 ++ (m, 0) :: f2) final) as [b1 [b2 [b3 [b4 [E' _]]]]]; auto.
  { intros p Hp. apply in_app_or in Hp. destruct Hp as [Hp|[<-|Hp]].
    - destruct (Hf p) as [A [B C]]; [apply in_or_app; auto|]. auto.
    - cbn [fst snd]. split; auto. split; auto. left. lra.
    - destruct (Hf p) as [A [B C]]; [apply in_or_app; auto|]. auto. }
  rewrite E, E'. f_equal. f_equal. exact (zero_film_lem (RtoC x0) final theta lam t f1 f2 H0 H1 Hl m _ _ E' E).
Qed.
Lemma energy_lem x0 films final theta lam tm : 0 < x0 -> 0 <= theta -> theta < PI / 2 -> 0 < lam ->
  (forall p, In p films -> transparent (fst p) /\ ~ grazing x0 theta (fst p)) -> transparent final ->
  exists refl trans rr tc,
    solver (stack_n x0 films final) (stack_d films) theta lam tm = Ok (Some (refl, trans, rr, Some tc)) /\
    refl = Cmod rr ^ 2 /\ trans = Cmod tc ^ 2 /\ refl + trans = 1.
Proof.
  intros Hx H0 H1 Hl Hf Hn.
  destruct (pv_solve x0 theta lam tm Hx H0 H1 Hl films final) as [a [b [c [d [E [E1 [E2 [_ [E4 _]]]]]]]]].
  - intros p Hp. destruct (Hf p Hp) as [[A B] G]. repeat split; auto; try lra. right. split; auto.
  - destruct Hn; split; lra.
  - exists a, b, c, d. repeat split; auto. apply E4; auto. intros p Hp. apply (Hf p Hp).
Qed.
Lemma passive_lem x0 films final theta lam tm : 0 < x0 -> 0 <= theta -> theta < PI / 2 -> 0 < lam ->
  (forall p, In p films -> passive (fst p) /\ ~ grazing x0 theta (fst p) /\ (0 <= snd p \/ transparent (fst p))) -> passive final ->
  exists refl trans rr tc,
    solver (stack_n x0 films final) (stack_d films) theta lam tm = Ok (Some (refl, trans, rr, Some tc)) /\
    refl = Cmod rr ^ 2 /\ trans = Cmod tc ^ 2 /\ refl + trans <= 1.
Proof.
  intros Hx H0 H1 Hl Hf Hn.
  destruct (pv_solve x0 theta lam tm Hx H0 H1 Hl films final Hf Hn) as [a [b [c [d [E [E1 [E2 [E3 _]]]]]]]].
  exists a, b, c, d. auto.
Qed.
Lemma each_nth {A B} (f : A -> res B) l out k x : each f l = Ok out -> nth_error l k = Some x ->
  exists y, f x = Ok y /\ nth_error out k = Some y.
Proof.
  revert out k. induction l as [|a l IH]; intros out k E N; [destruct k; discriminate|].
  cbn [each] in E. destruct (f a) as [y|] eqn:Ea; [|discriminate]. cbn [bind] in E.
  destruct (each f l) as [ys|] eqn:El; [|discriminate]. cbn [bind] in E. injection E as <-.
  destruct k as [|k]; cbn [nth_error] in *; [injection N as <-; eauto|]. eauto.
Qed.
Lemma nth_error_map' {A B} (f : A -> B) l k y : nth_error l k = Some y -> nth_error (map f l) k = Some (f y).
Proof. intros H. rewrite nth_error_map, H. reflexivity. Qed.
Lemma pixelwise_lem fd lam aoi tTi tNi tPMGI d0 pol opd substrate ts rs k a b c :
  calc_complex_occulter fd lam aoi tTi tNi tPMGI d0 pol opd substrate = Ok (ts, rs) ->
  nth_error tTi k = Some a -> nth_error tNi k = Some b -> nth_error tPMGI k = Some c ->
  exists t r, calc_complex_occulter fd lam aoi [a] [b] [c] d0 pol opd substrate = Ok ([t], [r]) /\
    nth_error ts k = Some t /\ nth_error rs k = Some r.
Proof.
  intros H Na Nb Nc.
  destruct (Classical_Prop.classic (occulter_checks lam aoi tTi tNi tPMGI d0 pol substrate)) as [K|K].
  2:{ rewrite (proj2 (occulter_unfold _ _ _ _ _ _ _ _ _ _) K) in H. discriminate. }
  rewrite (proj1 (occulter_unfold _ _ _ _ _ _ _ _ _ _) K) in H.
  assert (K1 : occulter_checks lam aoi [a] [b] [c] d0 pol substrate) by (unfold occulter_checks in *; cbn [List.length]; tauto).
  rewrite (proj1 (occulter_unfold _ _ _ _ _ _ _ _ _ _) K1). cbn [List.combine].
  set (F := fun p : R * R * R => _) in *.
  destruct (each F (List.combine (List.combine tTi tNi) tPMGI)) as [out|] eqn:E; [|discriminate]. cbn [bind] in H. injection H as <- <-.
  assert (N : nth_error (List.combine (List.combine tTi tNi) tPMGI) k = Some (a, b, c)).
  { clear -Na Nb Nc. revert tNi tPMGI k Na Nb Nc. induction tTi as [|x l IH]; intros [|y m] [|z n] [|k] Na Nb Nc; cbn in *; try discriminate; auto; try congruence. }
  destruct (each_nth F _ _ _ _ E N) as [[t r] [Ft Nt]]. exists t, r. cbn [each]. rewrite Ft. cbn [bind map fst snd].
  split; [reflexivity|]. split; [apply (nth_error_map' fst _ _ _ Nt)|apply (nth_error_map' snd _ _ _ Nt)].
Qed.
Lemma single_lem lam aoi dti dni dpm d0 pol substrate q1 q2 q3 q4 ns :
  occulter_checks lam aoi [dti] [dni] [dpm] d0 pol substrate -> pol <> 2%Z ->
  0 <= dti -> 0 <= dni -> 0 <= dpm -> fused_silica ((lam * 1000000) * (lam * 1000000)) = Some ns -> 0 < ns -> 0 < fst q4 ->
  let theta := aoi * (PI / 180) in
  let npm := RtoC (n_pmgi (lam * 1000000)) in
  let nni := index_of nickel (lam * 1000000000) in let nti := index_of titanium (lam * 1000000000) in
  medium_of 1 theta npm q1 -> medium_of 1 theta nni q2 -> medium_of 1 theta nti q3 -> medium_of 1 theta (RtoC ns) q4 ->
  let tm := Z.eqb pol 1 in
  let vacuum := (RtoC 1, RtoC (1 * cos theta), 0) : medium in
  let final := (RtoC ns, q4, 0) : medium in
  let rt := airy tm lam vacuum [(RtoC 1, RtoC (1 * cos theta), d0 - dpm - dni - dti); (npm, q1, dpm); (nni, q2, dni); (nti, q3, dti); final] in
  let P := fst (admittance tm final / admittance tm vacuum)%C in
  calc_complex_occulter shipped lam aoi [dti] [dni] [dpm] d0 pol true substrate =
    Ok ([Some (RtoC (sqrt P) * snd rt)%C], [Some (fst rt)]).
Proof.
  intros K Np D1 D2 D3 Es Hs Hq4 theta npm nni nti M1 M2 M3 M4 tm vacuum final rt P.
  rewrite (proj1 (occulter_unfold _ _ _ _ _ _ _ _ _ _) K). cbn [List.combine each fst snd]. change (fd_fs shipped) with fused_silica. rewrite Es.
  destruct K as (A & B & C & D & E & F & G & S).
  assert (PI0 := PI_RGT_0).
  assert (H0 : 0 <= theta) by (unfold theta; apply Rmult_le_pos; lra). assert (H1 : theta < PI / 2) by (unfold theta; nra).
  unfold occulter_pixel. destruct (Z.eqb_spec pol 2) as [|_]; [contradiction|].
  assert (Et : negb (pol =? 0)%Z = tm) by (unfold tm; destruct G as [-> | [-> | ->]]; try reflexivity; contradiction). rewrite Et.
  change (fd_ni shipped) with nickel. change (fd_ti shipped) with titanium.
  assert (Hp := pmgi_ok (lam * 1000000) ltac:(lra)).
  assert (I1 := index_ok nickel (lam * 1000000000) nickel_ok). assert (I2 := index_ok titanium (lam * 1000000000) titanium_ok).
  assert (SA := solver_airy 1 theta lam tm [(RtoC 1, RtoC (1 * cos theta), d0 - dpm - dni - dti); (npm, q1, dpm); (nni, q2, dni); (nti, q3, dti)]
    (RtoC ns) q4 Rlt_0_1 H0 H1 A).
  cbv zeta in SA. cbn [map app m_n m_d fst snd] in SA. fold npm nni nti theta. rewrite SA; auto.
  - intros m [<-|[<-|[<-|[<-|[]]]]]; unfold m_n, m_q, m_d; cbn [fst snd].
    + split; [split; cbn; lra|]. split; [apply not_grazing_real; auto; lra|]. split; [right; split; cbn; lra|]. split.
      * unfold normal_index. rewrite <- !RtoC_mult, <- RtoC_minus. f_equal. assert (S2 := sin2_cos2 theta). unfold Rsqr in S2. nra.
      * left. cbn. assert (0 < cos theta) by (apply cos_gt_0; lra). lra.
    + split; [split; cbn; lra|]. split; [apply not_grazing_real; auto; lra|]. split; auto.
    + split; [split; unfold nni; lra|]. split; [apply not_grazing_metal; unfold nni; tauto|]. split; auto.
    + split; [split; unfold nti; lra|]. split; [apply not_grazing_metal; unfold nti; tauto|]. split; auto.
  - split; cbn; lra.
Qed.
Lemma mean_lem fd lam aoi a b c d0 opd substrate t0 r0 t1 r1 :
  calc_complex_occulter fd lam aoi [a] [b] [c] d0 0 opd substrate = Ok ([Some t0], [Some r0]) ->
  calc_complex_occulter fd lam aoi [a] [b] [c] d0 1 opd substrate = Ok ([Some t1], [Some r1]) ->
  calc_complex_occulter fd lam aoi [a] [b] [c] d0 2 opd substrate = Ok ([Some ((t0 + t1) / RtoC 2)%C], [Some ((r0 + r1) / RtoC 2)%C]).
Proof.
  intros H0 H1.
  destruct (Classical_Prop.classic (occulter_checks lam aoi [a] [b] [c] d0 0 substrate)) as [K|K].
  2:{ rewrite (proj2 (occulter_unfold _ _ _ _ _ _ _ _ _ _) K) in H0. discriminate. }
  assert (K1 : occulter_checks lam aoi [a] [b] [c] d0 1 substrate) by (unfold occulter_checks in *; tauto).
  assert (K2 : occulter_checks lam aoi [a] [b] [c] d0 2 substrate) by (unfold occulter_checks in *; tauto).
  rewrite (proj1 (occulter_unfold _ _ _ _ _ _ _ _ _ _) K) in H0. rewrite (proj1 (occulter_unfold _ _ _ _ _ _ _ _ _ _) K1) in H1.
  rewrite (proj1 (occulter_unfold _ _ _ _ _ _ _ _ _ _) K2). clear K K1 K2. cbn [List.combine each fst snd] in *.
  destruct (fd_fs fd _) as [ns|]; [|discriminate]. unfold occulter_pixel in *.
  change (2 =? 2)%Z with true. change (0 =? 2)%Z with false in H0. change (1 =? 2)%Z with false in H1. cbv iota in *.
  change (negb (0 =? 0)%Z) with false in H0. change (negb (1 =? 0)%Z) with true in H1.
  destruct (solver _ _ _ lam false) as [o0|]; [|discriminate]. destruct (solver _ _ _ lam true) as [o1|]; [|discriminate].
  destruct o0 as [[[[? ?] rr0] [tc0|]]|]; try discriminate. destruct o1 as [[[[? ?] rr1] [tc1|]]|]; try discriminate.
  cbn [bind fst snd map] in *. injection H0 as <- <-. injection H1 as <- <-. unfold cmean. destruct opd; auto.
  assert (X : forall u v : C, Cconj ((u + v) / RtoC 2)%C = ((Cconj u + Cconj v) / RtoC 2)%C).
  { intros u v. unfold Cdiv. rewrite <- RtoC_inv by lra. rewrite Cconj_mult', Cconj_plus', Cconj_R. reflexivity. }
  rewrite !X. reflexivity.
Qed.

Lemma pmgi_range x y : 4 / 10 <= x -> x < y -> y <= 1 -> 1529 / 1000 < n_pmgi y < n_pmgi x /\ n_pmgi x < 1565 / 1000.
Proof.
  intros Hx Hxy Hy. unfold n_pmgi.
  assert (I : forall a b, 4 / 10 <= a -> a < b -> b <= 1 -> 1 <= / b ^ 2 /\ / b ^ 2 < / a ^ 2 /\ / a ^ 2 <= 625 / 100).
  { intros a b Ha Hab Hb. split; [|split].
    - rewrite <- Rinv_1 at 1. apply Rinv_le_contravar; nra.
    - apply Rinv_lt_contravar; [apply Rmult_lt_0_compat|]; nra.
    - replace (625 / 100) with (/ (4 / 10) ^ 2) by field. apply Rinv_le_contravar; nra. }
  destruct (I x y Hx Hxy Hy) as (A & B & D). unfold Rdiv. 
  replace (/ y ^ 4) with (/ y ^ 2 * / y ^ 2) by (field; lra). replace (/ x ^ 4) with (/ x ^ 2 * / x ^ 2) by (field; lra).
  set (u := / y ^ 2) in *. set (v := / x ^ 2) in *. clearbody u v. split; [split|]; nra.
Qed.
Lemma single_lem' lam aoi dti dni dpm d0 pol substrate q1 q2 q3 q4 ns :
  occulter_checks lam aoi [dti] [dni] [dpm] d0 pol substrate -> pol <> 2%Z ->
  0 <= dti -> 0 <= dni -> 0 <= dpm -> fused_silica ((lam * 1000000) * (lam * 1000000)) = Some ns -> 0 < ns -> 0 < fst q4 ->
  let theta := aoi * (PI / 180) in
  let um := lam * 1000000 in let npm := RtoC (1524 / 1000 + 5176 / 10 ^ 6 / um ^ 2 + 2105 / 10 ^ 7 / um ^ 4) in
  let nni := index_of nickel (lam * 1000000000) in let nti := index_of titanium (lam * 1000000000) in
  medium_of 1 theta npm q1 -> medium_of 1 theta nni q2 -> medium_of 1 theta nti q3 -> medium_of 1 theta (RtoC ns) q4 ->
  let tm := Z.eqb pol 1 in
  let vacuum := (RtoC 1, RtoC (1 * cos theta), 0) : medium in
  let final := (RtoC ns, q4, 0) : medium in
  let rt := airy tm lam vacuum [(RtoC 1, RtoC (1 * cos theta), d0 - dpm - dni - dti); (npm, q1, dpm); (nni, q2, dni); (nti, q3, dti); final] in
  let P := fst (admittance tm final / admittance tm vacuum)%C in
  calc_complex_occulter shipped lam aoi [dti] [dni] [dpm] d0 pol true substrate =
    Ok ([Some (RtoC (sqrt P) * snd rt)%C], [Some (fst rt)]).
Proof.
  intros H1 H2 H3 H4 H5 H6 H7 H8 theta um npm.
  assert (E : npm = RtoC (n_pmgi (lam * 1000000))).
  { unfold npm, um, n_pmgi. f_equal. f_equal; [f_equal|]; f_equal; field. }
  rewrite E. exact (single_lem lam aoi dti dni dpm d0 pol substrate q1 q2 q3 q4 ns H1 H2 H3 H4 H5 H6 H7 H8).
Qed.
