From Coq Require Import ZArith Bool List String Reals Lra Lia Psatz.
From Coquelicot Require Import Complex.
From Verif.Base Require Import Py CSum.
From Verif.Model Require Import ThinFilm.
From Verif.Spec Require Import ThinFilmSpec.
From Verif.Proofs Require Import ThinFilmP ThinFilmQ.
Import ListNotations.
Open Scope list_scope.
Open Scope R_scope.

(** * Branch *)
Lemma csqrt_branch z : on_branch (csqrt z).
Proof.
  destruct (Rle_lt_or_eq_dec _ _ (csqrt_re z)) as [H|H]; [left; auto|right].
  split; auto. apply csqrt_im0; auto. assert (Q := f_equal snd (csqrt_sqr z)). unfold Cmult in Q. cbn [snd] in Q.
  rewrite <- H in Q. rewrite <- Q. ring.
Qed.
Lemma branch_unique a b : on_branch a -> on_branch b -> (a * a)%C = (b * b)%C -> a = b.
Proof.
  intros A B E. assert (P : ((a - b) * (a + b))%C = 0%C).
  { replace ((a - b) * (a + b))%C with (a * a - b * b)%C by ring. rewrite E. ring. }
  destruct (Ceq_dec (a - b)%C 0) as [Z|Z].
  - transitivity (a - b + b)%C; [ring|]. rewrite Z. ring.
  - destruct (Ceq_dec (a + b)%C 0) as [S|S]; [|exfalso; now apply (Cmult_neq_0 _ _ Z S)].
    assert (S1 := f_equal fst S). assert (S2 := f_equal snd S). unfold Cplus in S1, S2. cbn [fst snd RtoC] in S1, S2.
    destruct A as [A|[A A']], B as [B|[B B']]; try lra. apply C_eq; lra.
Qed.
Lemma csqrt_unique q z : on_branch q -> (q * q)%C = z -> csqrt z = q.
Proof. intros A E. apply branch_unique; auto; [apply csqrt_branch|]. now rewrite csqrt_sqr. Qed.

Section Airy.
Variables (x0 theta lam : R) (t : bool).
Hypothesis (Hx : 0 < x0) (Ht0 : 0 <= theta) (Ht1 : theta < PI / 2) (Hl : 0 < lam).
Let K := 2 * PI / lam.
Let mk := mk_layer (RtoC x0) theta lam t.
Definition lay (m : medium) : layer := mk (m_n m) (m_d m).
Lemma Kp : 0 < K. Proof. apply K_pos; auto. Qed.
Lemma kz_q n q d : medium_of x0 theta n q -> l_kz (mk n d) = (- (RtoC K * q))%C.
Proof.
  intros [N B]. unfold mk. rewrite kz_def by auto. f_equal. apply csqrt_unique.
  - destruct B as [B|[B B']]; [left|right]; unfold Cmult, RtoC; cbn [fst snd]; assert (H := Kp).
    + nra.
    + rewrite B. split; [ring|nra].
  - replace (RtoC K * q * (RtoC K * q))%C with (RtoC K * RtoC K * (q * q))%C by ring. rewrite N.
    unfold wsq. fold K. apply C_eq; unfold Cminus, Cplus, Copp, Cmult, RtoC; cbn [fst snd]; ring.
Qed.
Lemma kzz_q m : medium_of x0 theta (m_n m) (m_q m) -> l_kzz (lay m) = (- (RtoC K * admittance t m))%C.
Proof.
  intros H. change (l_kzz (lay m)) with (if t then (l_kz (mk (m_n m) (m_d m)) / (m_n m * m_n m))%C else l_kz (mk (m_n m) (m_d m))).
  rewrite (kz_q _ _ (m_d m) H). unfold admittance. destruct t; auto. unfold Cdiv. ring.
Qed.
Lemma pass_eep m : medium_of x0 theta (m_n m) (m_q m) ->
  cexp (Ci * l_kz (lay m) * RtoC (l_d (lay m)))%C = pass lam m /\
  (cexp (- Ci * l_kz (lay m) * RtoC (l_d (lay m))) * pass lam m)%C = 1%C.
Proof.
  intros H.
  assert (A : cexp (Ci * l_kz (lay m) * RtoC (l_d (lay m)))%C = pass lam m).
  { unfold lay. rewrite (kz_q _ _ _ H). destruct (cexp_pm (- (RtoC K * m_q m))%C (l_d (mk (m_n m) (m_d m)))) as [_ ->].
    change (l_d (mk (m_n m) (m_d m))) with (m_d m).
    unfold pass. fold K. unfold Copp, Cmult, RtoC. cbn [fst snd].
    replace (- (- (K * snd (m_q m) + 0 * fst (m_q m)) * m_d m)) with (K * m_d m * snd (m_q m) + 0 * fst (m_q m)) by ring.
    replace (- (K * fst (m_q m) - 0 * snd (m_q m)) * m_d m) with (- (K * m_d m * fst (m_q m) - 0 * snd (m_q m))) by ring.
    rewrite cos_neg, sin_neg. apply C_eq; cbn [fst snd]; ring. }
  split; auto. rewrite <- A.
  replace (- Ci * l_kz (lay m) * RtoC (l_d (lay m)))%C with (- (Ci * l_kz (lay m) * RtoC (l_d (lay m))))%C by ring.
  rewrite Cmult_comm. apply cexp_opp.
Qed.
Lemma ri_q a b : medium_of x0 theta (m_n a) (m_q a) -> medium_of x0 theta (m_n b) (m_q b) ->
  l_kzz (lay a) <> 0%C -> (l_kzz (lay a) + l_kzz (lay b))%C <> 0%C ->
  ((l_kzz (lay a) - l_kzz (lay b)) / (l_kzz (lay a) + l_kzz (lay b)) = fresnel_r (admittance t a) (admittance t b) /\
   RtoC (/ 2) * (l_kzz (lay a) + l_kzz (lay b)) / l_kzz (lay a) * fresnel_t (admittance t a) (admittance t b) = 1)%C.
Proof.
  intros Ha Hb. rewrite (kzz_q _ Ha), (kzz_q _ Hb). intros NA NS.
  assert (NK : RtoC K <> 0%C) by (intros E; apply RtoC_inj in E; assert (H := Kp); lra).
  assert (NA' : admittance t a <> 0%C) by (intros E; apply NA; rewrite E; ring).
  assert (NS' : (admittance t a + admittance t b)%C <> 0%C).
  { intros E. apply NS. transitivity (- (RtoC K * (admittance t a + admittance t b)))%C; [ring|]. rewrite E. ring. }
  unfold fresnel_r, fresnel_t. rewrite half2. generalize ne2. intros N2. split; field; repeat split; auto.
Qed.

(** The stack matrix's first column in terms of Airy's recursion, when no partial stack has a vanishing amplitude. *)
Lemma airy_stack rest : forall a,
  (forall m, In m (a :: rest) -> medium_of x0 theta (m_n m) (m_q m)) ->
  inner_down (map lay (a :: rest)) ->
  (forall pre m post, a :: rest = pre ++ m :: post -> e0 (map lay (m :: post)) <> 0%C) ->
  (e1 (map lay (a :: rest)) = e0 (map lay (a :: rest)) * (fst (airy t lam a rest) * (pass lam a * pass lam a)) /\
   e0 (map lay (a :: rest)) * (snd (airy t lam a rest) * pass lam a) = pass lam (last rest a))%C.
Proof.
  induction rest as [|b rest IH]; intros a M D N.
  - cbn [map airy fst snd last]. unfold e0, e1. rewrite stack_one. cbn [eye2 m00 m10]. split; ring.
  - assert (Mb : forall m, In m (b :: rest) -> medium_of x0 theta (m_n m) (m_q m)) by (intros; apply M; now right).
    cbn [map] in D. destruct (proj1 (inner_down_cons _ _ _) D) as [Da Db].
    assert (Nb : forall pre m post, b :: rest = pre ++ m :: post -> e0 (map lay (m :: post)) <> 0%C).
    { intros pre m post E. apply (N (a :: pre)). rewrite E. reflexivity. }
    destruct (IH b Mb Db Nb) as [I1 I2].
    assert (Ha := M a (or_introl eq_refl)). assert (Hb := Mb b (or_introl eq_refl)).
    destruct (pass_eep a Ha) as [P1 P2].
    assert (NS : (l_kzz (lay a) + l_kzz (lay b))%C <> 0%C).
    { apply down_neq0, down_plus; auto. eapply inner_down_hd; eauto. }
    destruct (ri_q a b Ha Hb (down_neq0 _ Da) NS) as [R1 R2].
    assert (N0 := N [] a (b :: rest) eq_refl). assert (N1 := Nb [] b rest eq_refl).
    cbn [map] in *.
    assert (E0 : e0 (lay a :: lay b :: map lay rest) =
      (cexp (- Ci * l_kz (lay a) * RtoC (l_d (lay a))) * (RtoC (/ 2) * (l_kzz (lay a) + l_kzz (lay b)) / l_kzz (lay a)) *
       e0 (lay b :: map lay rest) * (1 + fresnel_r (admittance t a) (admittance t b) * (fst (airy t lam b rest) * (pass lam b * pass lam b))))%C).
    { unfold e0 at 1. rewrite stack_cons. unfold mmul, film_matrix. cbn [m00 m01]. fold (e0 (lay b :: map lay rest)). fold (e1 (lay b :: map lay rest)).
      rewrite I1, R1. ring. }
    assert (E1 : e1 (lay a :: lay b :: map lay rest) =
      (pass lam a * (RtoC (/ 2) * (l_kzz (lay a) + l_kzz (lay b)) / l_kzz (lay a)) *
       e0 (lay b :: map lay rest) * (fresnel_r (admittance t a) (admittance t b) + (fst (airy t lam b rest) * (pass lam b * pass lam b))))%C).
    { unfold e1 at 1. rewrite stack_cons. unfold mmul, film_matrix. cbn [m10 m11]. fold (e0 (lay b :: map lay rest)). fold (e1 (lay b :: map lay rest)).
      rewrite I1, R1, P1. ring. }
    set (ri := fresnel_r (admittance t a) (admittance t b)) in *. set (ti := fresnel_t (admittance t a) (admittance t b)) in *.
    set (tin := (RtoC (/ 2) * (l_kzz (lay a) + l_kzz (lay b)) / l_kzz (lay a))%C) in *.
    set (rb := (fst (airy t lam b rest) * (pass lam b * pass lam b))%C) in *.
    set (eep := cexp (- Ci * l_kz (lay a) * RtoC (l_d (lay a)))%C) in *.
    assert (ND : (1 + ri * rb)%C <> 0%C) by (intros Z; apply N0; rewrite E0, Z; ring).
    cbn [airy fst snd]. fold ri ti. fold rb. change (last (b :: rest) a) with (last rest b) || idtac.
    assert (L : last (b :: rest) a = last rest b) by (destruct rest; [reflexivity|]; clear; revert b m; induction rest; intros; [reflexivity|]; cbn in *; destruct rest; auto).
    rewrite L. split.
    + rewrite E1, E0. transitivity (eep * pass lam a * (pass lam a * tin * e0 (lay b :: map lay rest) * (ri + rb)))%C; [rewrite P2; ring|].
      field. auto.
    + rewrite E0, <- I2. transitivity ((eep * pass lam a) * (tin * ti) * (e0 (lay b :: map lay rest) * (snd (airy t lam b rest) * pass lam b)))%C; [field; auto|].
      rewrite P2, R2. ring.
Qed.
End Airy.

Lemma medium_re x0 theta lam t n d : 0 < x0 -> 0 < lam -> passive n -> fst (l_kz (mk_layer (RtoC x0) theta lam t n d)) < 0 ->
  fst (l_kzz (mk_layer (RtoC x0) theta lam t n d)) < 0.
Proof.
  intros Hx Hl Hn. destruct (kzz_parts x0 theta lam Hl t n d Hn) as [p [r [u [v [E [P [I [PR [U [V [V0 [D [U0 [_ Ez]]]]]]]]]]]]]].
  rewrite E, Ez. cbn [fst]. intros Np. destruct t; cbn [fst snd]; [|lra].
  set (K := 2 * PI / lam) in *. assert (HK : 0 < K) by (apply K_pos; auto). set (kx := K * x0 * sin theta) in *.
  apply Rcomplements.Rlt_div_l; auto. rewrite Rmult_0_l.
  apply Rmult_lt_reg_l with (K * K); [nra|]. rewrite Rmult_0_r.
  replace (K * K * (- p * u - r * v)) with (- p * (K * K * u) - r * (K * K * v)) by ring. rewrite U, V.
  replace (_ - _) with (- (p * (p * p + r * r + kx * kx))) by ring.
  assert (0 < p * (p * p + r * r + kx * kx)) by (apply Rmult_lt_0_compat; nra). lra.
Qed.
Lemma flux_back k g : fst k <= 0 -> 0 <= flux k 0 g.
Proof.
  intros H. destruct k as [k1 k2], g as [g1 g2]. unfold flux, Cconj, Cminus, Cmult, Cplus, Copp, RtoC. cbn [fst snd] in *. nra.
Qed.
Lemma suffix_amp ls z : inner_down ls -> ls <> [] -> (forall l, In l ls -> lossy l \/ lossless l) ->
  fst (l_kzz (last ls z)) < 0 -> e0 ls <> 0%C.
Proof.
  intros D N L H E. assert (F := stack_flux ls z D N L). rewrite E in F.
  destruct ls as [|a l]; [contradiction|]. cbn [hd] in F.
  assert (fst (l_kzz a) <= 0) by (destruct (inner_down_hd _ _ D) as [[X|[X _]]|X]; try lra; rewrite X; cbn; lra).
  assert (X := flux_back (l_kzz a) (e1 (a :: l)) H0). lra.
Qed.
Lemma inner_down_app pre m post : inner_down (pre ++ m :: post) -> inner_down (m :: post).
Proof.
  induction pre as [|a pre IH]; auto. intros H. apply IH. cbn [app] in H.
  destruct (pre ++ m :: post) as [|b l] eqn:E; [destruct pre; discriminate|]. now apply (inner_down_cons a b l).
Qed.
Lemma last_app_cons {A} (pre : list A) m post z : last (pre ++ m :: post) z = last (m :: post) z.
Proof.
  induction pre as [|a pre IH]; auto. cbn [app]. rewrite <- IH.
  destruct (pre ++ m :: post) eqn:E; [destruct pre; discriminate|reflexivity].
Qed.

Lemma solver_airy x0 theta lam t (films : list medium) nf qf :
  0 < x0 -> 0 <= theta -> theta < PI / 2 -> 0 < lam ->
  (forall m, In m films -> passive (m_n m) /\ ~ grazing x0 theta (m_n m) /\ (0 <= m_d m \/ transparent (m_n m)) /\
     medium_of x0 theta (m_n m) (m_q m)) ->
  passive nf -> medium_of x0 theta nf qf -> 0 < fst qf ->
  let first := (RtoC x0, RtoC (x0 * cos theta), 0) : medium in
  let final := (nf, qf, 0) : medium in
  let r := fst (airy t lam first (films ++ [final])) in
  let tr := snd (airy t lam first (films ++ [final])) in
  let P := fst (admittance t final / admittance t first)%C in
  solver (RtoC x0 :: map m_n films ++ [nf]) (map m_d films) theta lam t =
    Ok (Some (Cmod r ^ 2, P * Cmod tr ^ 2, r, Some (RtoC (sqrt P) * tr)%C)).
Proof.
  intros Hx Ht0 Ht1 Hl Hf Hn Hm Hq first final r tr P.
  set (fs := map (fun m => (m_n m, m_d m)) films).
  assert (E1 : map m_n films = map fst fs) by (unfold fs; rewrite map_map; reflexivity).
  assert (E2 : map m_d films = map snd fs) by (unfold fs; rewrite map_map; reflexivity).
  rewrite E1, E2, solver_eq by auto.
  assert (Hfs : forall p, In p fs -> passive (fst p) /\ ~ grazing x0 theta (fst p) /\ (0 <= snd p \/ transparent (fst p))).
  { intros p Hp. apply in_map_iff in Hp. destruct Hp as [m [<- Hm']]. destruct (Hf m Hm') as [A [B [C _]]]. auto. }
  assert (Hls : layers (RtoC x0) theta lam t fs nf = map (lay x0 theta lam t) (first :: films ++ [final])).
  { unfold layers, fs, lay. cbn [map]. rewrite map_app, map_map. reflexivity. }
  assert (D := pv_down x0 theta lam t Hx Ht0 Ht1 Hl fs nf Hfs Hn).
  assert (L := pv_layers x0 theta lam t Hx Hl fs nf Hfs Hn).
  assert (Fin := pv_finite x0 theta lam t Hx Ht0 Ht1 Hl fs nf Hfs Hn).
  assert (Hfirst : medium_of x0 theta (m_n first) (m_q first)).
  { split.
    - unfold normal_index, first, m_q, m_n. cbn [fst snd]. apply C_eq; unfold Cminus, Cplus, Copp, Cmult, RtoC; cbn [fst snd]; [|ring].
      assert (S := sin2_cos2 theta). unfold Rsqr in S.
      replace (cos theta) with (cos theta) by auto. ring_simplify. nra.
    - left. cbn. apply Rmult_lt_0_compat; auto. apply cos_gt_0; lra. }
  assert (Hre : fst (l_kzz (mk_layer (RtoC x0) theta lam t nf 0)) < 0).
  { apply medium_re; auto. rewrite (kz_q x0 theta lam t Hl nf qf 0 Hm). unfold Copp, Cmult, RtoC. cbn [fst snd].
    assert (H := K_pos lam Hl). nra. }
  rewrite Hls in *.
  set (ls := map (lay x0 theta lam t) (first :: films ++ [final])) in *.
  assert (Hlast : forall z, last ls z = mk_layer (RtoC x0) theta lam t nf 0).
  { intros z. unfold ls. cbn [map]. rewrite map_app. cbn [map]. rewrite app_comm_cons, last_last. reflexivity. }
  destruct (airy_stack x0 theta lam t Hl (films ++ [final]) first) as [A1 A2].
  { intros m [<-|Hm']; auto. apply in_app_or in Hm'. destruct Hm' as [Hm'|[<-|[]]]; auto. apply (Hf m Hm'). }
  { exact D. }
  { intros pre m post E. set (z := mk_layer (RtoC x0) theta lam t nf 0).
    assert (Els : ls = map (lay x0 theta lam t) pre ++ map (lay x0 theta lam t) (m :: post)) by (unfold ls; rewrite E, map_app; reflexivity).
    apply (suffix_amp _ z).
    - apply (inner_down_app (map (lay x0 theta lam t) pre) (lay x0 theta lam t m) (map (lay x0 theta lam t) post)).
      change (inner_down (map (lay x0 theta lam t) pre ++ map (lay x0 theta lam t) (m :: post))). rewrite <- Els. exact D.
    - discriminate.
    - intros l Hl'. apply L. rewrite Els. apply in_or_app. now right.
    - assert (X := Hlast z). rewrite Els in X. cbn [map] in X |- *. rewrite last_app_cons in X. rewrite X. exact Hre. }
  assert (N0 : e0 ls <> 0%C).
  { apply (suffix_amp ls (mk_layer (RtoC x0) theta lam t nf 0)); auto; [discriminate|]. rewrite Hlast. auto. }
  assert (Pf : pass lam first = RtoC 1 /\ pass lam final = RtoC 1).
  { split; unfold pass, first, final, m_d, m_q; cbn [fst snd]; rewrite Rmult_0_r, Cmult_0_l; cbn [fst snd RtoC];
      rewrite exp_0, cos_0, sin_0; apply C_eq; cbn; ring. }
  destruct Pf as [Pf1 Pf2].
  rewrite last_last in A2. rewrite Pf1, Pf2 in A2. rewrite Pf1 in A1. fold ls r in A1. fold ls tr in A2.
  assert (Er : (m10 (stack_matrix ls) / m00 (stack_matrix ls))%C = r).
  { change (e1 ls / e0 ls = r)%C. rewrite A1. field. auto. }
  assert (Et : (1 / m00 (stack_matrix ls))%C = tr).
  { change (1 / e0 ls = tr)%C. rewrite <- A2. field. auto. }
  unfold solve_layers. rewrite Fin, Er, Et. rewrite Ceqb_neq by exact N0. cbn [andb].
  set (Pn := if t then _ else _).
  assert (Gz : Pn = fst (l_kzz (lay x0 theta lam t final) / l_kzz (lay x0 theta lam t first))%C).
  { unfold Pn, lay, mk_layer, first, final, m_n, m_d. cbn [fst snd l_kz l_n l_kzz]. destruct t; reflexivity. }
  assert (Hfin : medium_of x0 theta (m_n final) (m_q final)) by exact Hm.
  assert (GP : Pn = P).
  { rewrite Gz, (kzz_q x0 theta lam t Hl final Hfin), (kzz_q x0 theta lam t Hl first Hfirst). unfold P. f_equal.
    assert (NK : RtoC (2 * PI / lam) <> 0%C) by (intros E; apply RtoC_inj in E; assert (H := K_pos lam Hl); lra).
    assert (NA : admittance t first <> 0%C).
    { intros E. destruct (incident_kzz x0 theta lam Hx Ht0 Ht1 Hl t 0) as [c [Hc Ec]].
      change (mk_layer (RtoC x0) theta lam t (RtoC x0) 0) with (lay x0 theta lam t first) in Ec.
      rewrite (kzz_q x0 theta lam t Hl first Hfirst), E in Ec. assert (X := f_equal fst Ec). cbn in X. lra. }
    field. split; auto. intros X. apply (Cmult_neq_0 _ _ NK NA). 
    transitivity (- (- (RtoC (2 * PI / lam) * admittance t first)))%C; [ring|]. rewrite X. ring. }
  assert (P0 : 0 <= Pn).
  { rewrite Gz. destruct (incident_kzz x0 theta lam Hx Ht0 Ht1 Hl t 0) as [c [Hc Ec]].
    change (l_kzz (lay x0 theta lam t first)) with (l_kzz (mk_layer (RtoC x0) theta lam t (RtoC x0) 0)). rewrite Ec.
    change (l_kzz (lay x0 theta lam t final)) with (l_kzz (mk_layer (RtoC x0) theta lam t nf 0)).
    clear - Hre Hc. revert Hre. generalize (l_kzz (mk_layer (RtoC x0) theta lam t nf 0)). intros [u v] Hre.
    unfold Cdiv. rewrite <- RtoC_inv by lra. unfold Cmult, RtoC. cbn [fst snd] in *. rewrite Rmult_0_r, Rminus_0_r.
    assert (/ - c < 0) by (apply Rinv_lt_0_compat; lra). nra. }
  destruct (Rle_dec 0 Pn); [|contradiction]. rewrite GP. reflexivity.
Qed.
