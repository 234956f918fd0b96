(** The inputs the matrix Fourier transforms in double precision refuse. *)
From Coq Require Import ZArith Reals Bool List Lia Lra.
From Coquelicot Require Import Complex.
From Flocq Require Import Core BinarySingleNaN.
From Verif.Base Require Import Py F64 Arr Vec Sums CSum.
From Verif.Model Require Import Mft MftF.
From Verif.Spec Require Import RefuseSpec RefuseLibSpec MftFSpec.
From Verif.Proofs Require Import F64P RefuseP RefuseLib.
Import ListNotations.
Local Open Scope R_scope.
Local Notation B := (bpow radix2).

Lemma width_pos p n : is_finite p = true -> 0 < fval p -> (1 <= n <= 2 ^ 53)%Z -> fle (fdiv (fofZ n) p) fzero = false.
Proof.
  intros Fp Pp Hn. destruct (fofZ_spec n) as [En Fn]; [rewrite Z.abs_eq; lia|].
  assert (N1 : 1 <= IZR n) by (apply IZR_le; lia).
  pose proof (Bdiv_correct prec emax Hprec Hmax mode_NE (fofZ n) p) as D. fold (fval p) in D. specialize (D ltac:(lra)). fold (fdiv (fofZ n) p) (fval (fdiv (fofZ n) p)) (fval (fofZ n)) in D.
  rewrite En in D. change (round radix2 (SpecFloat.fexp prec emax) (round_mode mode_NE) (IZR n / fval p)) with (rnd64 (IZR n / fval p)) in D.
  assert (Up : fval p <= B 1024). { pose proof (abs_B2R_lt_emax prec emax p) as A. fold (fval p) in A. change (B emax) with (B 1024) in A. rewrite Rabs_right in A by lra. lra. }
  assert (L : B (-1024) <= rnd64 (IZR n / fval p)).
  { apply round_ge_generic; auto with typeclass_instances. - apply generic_format_bpow. unfold flt_exp. lia.
    - assert (I : B (-1024) = / B 1024) by exact (bpow_opp radix2 1024). rewrite I. unfold Rdiv. apply Rle_trans with (/ fval p).
      + apply Rinv_le; auto. + assert (0 < / fval p) by (apply Rinv_0_lt_compat; auto). nra. }
  pose proof (bpow_gt_0 radix2 (-1024)).
  destruct (Rlt_bool (Rabs (rnd64 (IZR n / fval p))) (B emax)).
  - destruct D as (V & F & _). assert (F' : is_finite (fdiv (fofZ n) p) = true) by (transitivity (is_finite (fofZ n)); auto). rewrite fle_val by auto. apply Rle_bool_false. change (fval fzero) with 0. assert (V' : fval (fdiv (fofZ n) p) = rnd64 (IZR n / fval p)) by exact V. lra.
  - assert (S1 : Bsign (fofZ n) = false). { destruct (fofZ n) as [s|s| |s m x Hx] eqn:Q; try discriminate; cbn in En; [exfalso; lra|]. destruct s; auto. exfalso. pose proof (F2R_lt_0 radix2 (Float radix2 (Z.neg m) x) ltac:(reflexivity)). cbn in *. lra. }
    assert (S2 : Bsign p = false). { destruct p as [s|s| |s m x Hx] eqn:Q; try discriminate; cbn in Pp; [exfalso; lra|]. destruct s; auto. exfalso. pose proof (F2R_lt_0 radix2 (Float radix2 (Z.neg m) x) ltac:(reflexivity)). cbn in *. lra. }
    rewrite S1, S2 in D. cbn [xorb] in D. destruct (fdiv (fofZ n) p) as [s|[]| |s m x Hx]; cbn in D; try discriminate; reflexivity.
Qed.
Lemma width_nan n p : is_nan p = true -> fle (fdiv (fofZ n) p) fzero = false.
Proof. destruct p; try discriminate. intros _. unfold fdiv. destruct (fofZ n); reflexivity. Qed.
Lemma width_inf n : (1 <= n <= 2 ^ 53)%Z -> fle (fdiv (fofZ n) (B754_infinity false)) fzero = true.
Proof.
  intros Hn. destruct (fofZ_spec n) as [En Fn]; [rewrite Z.abs_eq; lia|]. unfold fdiv. destruct (fofZ n) as [s|s| |s m x Hx]; try discriminate; destruct s; reflexivity.
Qed.
(** A sampling passes its own check and is either usable or infinite, or fails its own check. *)
Lemma scale_cases p : (a_scale p /\ fle p fzero = false) \/ (~ a_scale p /\ fle p fzero = false /\ p = B754_infinity false) \/ (~ a_scale p /\ fle p fzero = true).
Proof.
  unfold a_scale. destruct p as [s|s| |s m x Hx] eqn:Q; cbn [is_nan is_finite].
  - right; right. split; [intros [A|[_ A]]; [discriminate|cbn in A; lra]|destruct s; reflexivity].
  - destruct s; [right; right; split; [intros [A|[A _]]; discriminate|reflexivity]|right; left; split; [intros [A|[A _]]; discriminate|split; reflexivity]].
  - left. split; auto.
  - rewrite fle_val by reflexivity. change (fval fzero) with 0. destruct (Rle_bool_spec (fval (B754_finite s m x Hx)) 0).
    + right; right. split; auto. intros [A|[_ A]]; [discriminate|lra].
    + left. split; auto.
Qed.
Lemma interval_f_cases p n : fle p fzero = false -> (0 <= n <= 2 ^ 53)%Z ->
  (a_scale p /\ (0 < n)%Z /\ exists v d, interval_f (fdiv (fofZ n) p) n = Ok (v, d) /\ vlen v = n) \/ (~ (a_scale p /\ (0 < n)%Z) /\ interval_f (fdiv (fofZ n) p) n = Err TypeError).
Proof.
  intros Hp Hn. unfold interval_f. destruct (Z.ltb_spec 0 n) as [P|P].
  - destruct (scale_cases p) as [[A _]|[(A & _ & E)|[_ A]]]; [| |congruence].
    + left. split; [auto|]. split; [auto|]. assert (W : fle (fdiv (fofZ n) p) fzero = false).
      { destruct A as [A|[A A']]; [apply width_nan; auto|apply width_pos; auto; lia]. }
      rewrite W. cbn [negb guard bind]. do 2 eexists. split; [reflexivity|reflexivity].
    + right. split; [tauto|]. subst p. rewrite width_inf by lia. reflexivity.
  - right. split; [lia|]. destruct (negb _); reflexivity.
Qed.
Lemma refused_type l e : refused (map (fun P : Prop => (P, TypeError)) l) e <-> e = TypeError /\ ~ Forall (fun P : Prop => P) l.
Proof.
  induction l as [|P l IH]; cbn [map].
  - rewrite refused_nil. split; [tauto|]. intros [_ N]. apply N. constructor.
  - rewrite refused_iff, IH, Forall_cons_iff. destruct (Classical_Prop.classic P); tauto.
Qed.

Section Lib.
Variables (fcexp : c128 -> c128) (fdot : arr c128 -> arr c128 -> arr c128).
Hypothesis Hdot : dot_ok fdot.

Lemma program_ok x y xu xv e f g c d : vlen x = nr e -> vlen y = nc e ->
  exists o, (do t <- mdot_f fdot (exp_outer_f fcexp f xu x) e; do t <- mdot_f fdot t (exp_outer_f fcexp g y xv); Ok (ascale_f d (ascale_f c t))) = Ok o.
Proof.
  intros L1 L2. unfold mdot_f at 1. cbn [exp_outer_f nr nc]. rewrite L1, Z.eqb_refl. cbn [guard bind].
  destruct (Hdot (exp_outer_f fcexp f xu x) e L1) as (_ & Q & _). unfold mdot_f. cbn [exp_outer_f nr nc] in *. rewrite Q, L2, Z.eqb_refl. cbn [guard bind]. eauto.
Qed.
Ltac bad := rewrite refused_type; split; [intros [= <-]; split; [auto|]; intros F; repeat (apply Forall_cons_iff in F; destruct F as [? F]); try tauto|intros [-> _]; reflexivity].

Lemma program_refused s e sh p q pd po : (0 <= nr e <= 2 ^ 53)%Z -> (0 <= nc e <= 2 ^ 53)%Z -> (forall n, In n sh -> n <= 2 ^ 53)%Z -> (pd = p /\ po = q \/ pd = q /\ po = p) -> forall err,
  (check negb (fle p fzero) else TypeError; check negb (fle q fzero) else TypeError; do sh <- shape2 1 sh;
   do rowd <- interval_f (fdiv (fofZ (nr e)) pd) (nr e); do cold <- interval_f (fdiv (fofZ (nc e)) pd) (nc e);
   do rowpp <- interval_f (fdiv (fofZ (fst sh)) po) (fst sh); do colpp <- interval_f (fdiv (fofZ (snd sh)) po) (snd sh);
   do t <- mdot_f fdot (exp_outer_f fcexp s (fst rowpp) (fst rowd)) e; do t <- mdot_f fdot t (exp_outer_f fcexp s (fst cold) (fst colpp));
   Ok (ascale_f (snd cold) (ascale_f (snd rowd) t))) = Err err <-> refused (mft_f_needs e sh p q) err.
Proof.
  intros Hr Hc Hs Hpq err. unfold mft_f_needs.
  destruct (scale_cases p) as [Sp|Sp]; [|destruct Sp as [Sp|[Np Sp]]].
  3: { rewrite Sp. cbn [negb guard bind]. bad. }
  all: destruct (scale_cases q) as [Sq|Sq]; [|destruct Sq as [Sq|[Nq Sq]]].
  3, 6: unfold guard; rewrite Sq; destruct (fle p fzero); cbn [negb bind]; bad.
  all: assert (Lp : fle p fzero = false) by tauto; assert (Lq : fle q fzero = false) by tauto; rewrite Lp, Lq; cbn [negb guard bind].
  all: destruct (shape2 1 sh) as [[h w]|e'] eqn:E2; cbn [bind fst snd]; [|apply shape2_err in E2 as [N2 ->]; bad].
  all: apply shape2_ok in E2 as (-> & Hh & Hw); pose proof (Hs h ltac:(cbn; auto)); pose proof (Hs w ltac:(cbn; auto)).
  all: assert (Lpd : fle pd fzero = false) by (destruct Hpq as [[-> ->]|[-> ->]]; auto); assert (Lpo : fle po fzero = false) by (destruct Hpq as [[-> ->]|[-> ->]]; auto).
  all: assert (AP : a_scale p /\ a_scale q <-> a_scale pd /\ a_scale po) by (destruct Hpq as [[-> ->]|[-> ->]]; tauto).
  all: destruct (interval_f_cases pd (nr e) Lpd Hr) as [(A1 & B1 & v1 & d1 & E1 & L1)|[N1 E1]]; rewrite E1; cbn [bind fst snd]; [|bad].
  all: destruct (interval_f_cases pd (nc e) Lpd Hc) as [(A2 & B2 & v2 & d2 & E2 & L2)|[N2 E2]]; rewrite E2; cbn [bind fst snd]; [|bad].
  all: destruct (interval_f_cases po h Lpo ltac:(lia)) as [(A3 & B3 & v3 & d3 & E3 & L3)|[N3 E3]]; rewrite E3; cbn [bind fst snd]; [|bad; assert (0 < h)%Z by lia; tauto].
  all: destruct (interval_f_cases po w Lpo ltac:(lia)) as [(A4 & B4 & v4 & d4 & E4 & L4)|[N4 E4]]; rewrite E4; cbn [bind fst snd]; [|bad; assert (0 < w)%Z by lia; tauto].
  all: destruct (program_ok v1 v2 v3 v4 e s s d1 d2 L1 L2) as [o EO]; rewrite EO.
  all: rewrite refused_type; split; [discriminate|intros [_ N]; exfalso; apply N; repeat apply Forall_cons; try tauto; auto; exists h, w; auto].
Qed.
Lemma do_mft_f_refused e sh ppl ppp err : (0 <= nr e <= 2 ^ 53)%Z -> (0 <= nc e <= 2 ^ 53)%Z -> (forall n, In n sh -> n <= 2 ^ 53)%Z ->
  do_mft_f fcexp fdot e sh ppl ppp = Err err <-> refused (mft_f_needs e sh ppl ppp) err.
Proof. intros. apply (program_refused (-2) e sh ppl ppp ppp ppl); auto. Qed.
Lemma do_imft_f_refused e sh ppl ppp err : (0 <= nr e <= 2 ^ 53)%Z -> (0 <= nc e <= 2 ^ 53)%Z -> (forall n, In n sh -> n <= 2 ^ 53)%Z ->
  do_imft_f fcexp fdot e sh ppl ppp = Err err <-> refused (mft_f_needs e sh ppl ppp) err.
Proof. intros. apply (program_refused 2 e sh ppl ppp ppl ppp); auto. Qed.

Lemma slice_len_iff {A} n y0 h (x : vec A) : vlen x = n -> (0 < n)%Z -> (0 <= y0)%Z -> (0 <= h)%Z ->
  vlen (get_vslice x (Slice y0 (y0 + h))) = h <-> (h = 0 \/ y0 + h <= n)%Z.
Proof.
  intros <- H0 H1 H2. unfold get_vslice, slice_len, slice_lo, slice_bound. cbn [vlen vat s_start s_stop].
  destruct (Z.ltb_spec y0 0); [lia|]. destruct (Z.ltb_spec (y0 + h) 0); [lia|]. lia.
Qed.
Ltac badt := rewrite refused_app, refused_type; split; [intros [= <-]; left; split; [auto|]; intros F; repeat (apply Forall_cons_iff in F; destruct F as [? F]); try tauto
  |intros [[-> _]|[M _]]; [reflexivity|exfalso; unfold met in M; cbn [map] in M; repeat (apply Forall_cons_iff in M; destruct M as [? M]); cbn [fst] in *; try tauto]].
Lemma do_offcenter_f_refused e sh ppl ppp ps ll err : (0 <= nr e)%Z -> (0 <= nc e)%Z -> (forall n, In n sh -> n <= 2 ^ 53)%Z -> (forall n, In n ps -> n <= 2 ^ 53)%Z ->
  do_offcenter_mft_f fcexp fdot e sh ppl ppp ps ll = Err err <-> refused (offcenter_f_needs e sh ppl ppp ps ll) err.
Proof.
  intros Hr Hc Hs Hps. unfold do_offcenter_mft_f, offcenter_f_needs.
  destruct (scale_cases ppl) as [Sp|Sp]; [|destruct Sp as [Sp|[Np Sp]]].
  3: { rewrite Sp. cbn [negb guard bind]. badt. }
  all: destruct (scale_cases ppp) as [Sq|Sq]; [|destruct Sq as [Sq|[Nq Sq]]].
  3, 6: unfold guard; rewrite Sq; destruct (fle ppl fzero); cbn [negb bind]; badt.
  all: assert (Lp : fle ppl fzero = false) by tauto; assert (Lq : fle ppp fzero = false) by tauto; rewrite Lp, Lq; cbn [negb guard bind].
  all: destruct (shape2 1 sh) as [[h w]|e'] eqn:E2; cbn [bind fst snd]; [|apply shape2_err in E2 as [N2 ->]; badt].
  all: apply shape2_ok in E2 as (-> & Hh & Hw); pose proof (Hs h ltac:(cbn; auto)); pose proof (Hs w ltac:(cbn; auto)).
  all: destruct (shape2 1 ps) as [[hp wp]|e'] eqn:E2; cbn [bind fst snd]; [|apply shape2_err in E2 as [N2 ->]; badt].
  all: apply shape2_ok in E2 as (-> & Hhp & Hwp); pose proof (Hps hp ltac:(cbn; auto)); pose proof (Hps wp ltac:(cbn; auto)).
  all: destruct (shape2 0 ll) as [[y0 x0]|e'] eqn:E2; cbn [bind fst snd]; [|apply shape2_err in E2 as [N2 ->]; badt].
  all: apply shape2_ok in E2 as (-> & Hy & Hx).
  all: assert (Z1 : (0 < hp)%Z) by lia; assert (Z2 : (0 < wp)%Z) by lia; assert (Z3 : (0 < h)%Z) by lia; assert (Z4 : (0 < w)%Z) by lia.
  all: destruct (interval_f_cases ppp hp Lq ltac:(lia)) as [(A1 & B1 & v1 & d1 & E1 & L1)|[N1 E1]]; rewrite E1; cbn [bind fst snd]; [|badt].
  all: destruct (interval_f_cases ppp wp Lq ltac:(lia)) as [(A2 & B2 & v2 & d2 & E2 & L2)|[N2 E2]]; rewrite E2; cbn [bind fst snd]; [|badt].
  all: destruct (interval_f_cases ppl h Lp ltac:(lia)) as [(A3 & B3 & v3 & d3 & E3 & L3)|[N3 E3]]; rewrite E3; cbn [bind fst snd]; [|badt].
  all: destruct (interval_f_cases ppl w Lp ltac:(lia)) as [(A4 & B4 & v4 & d4 & E4 & L4)|[N4 E4]]; rewrite E4; cbn [bind fst snd]; [|badt].
  2-4: exfalso; tauto.
  cbn [map app nth_error ends_inside].
  do 5 (rewrite refused_iff; match goal with |- _ <-> (~ ?P /\ _) \/ (_ /\ ?Q) => let T := fresh in assert (T : P) by first [assumption|do 2 eexists; split; [reflexivity|lia]];
     let X := fresh in assert (X : (~ P /\ err = TypeError) \/ (P /\ Q) <-> Q) by tauto; rewrite X; clear X end).
  unfold mdot_f at 1. cbn [exp_outer_f nr nc]. rewrite bind_assoc. apply check_step.
  { rewrite Z.eqb_eq. apply slice_len_iff; auto. }
  intros F1. cbn [bind]. unfold mdot_f. destruct (Hdot (exp_outer_f fcexp (-2) v3 (get_vslice v1 (Slice y0 (y0 + nr e)))) e) as (_ & Q & _).
  { apply (slice_len_iff hp); auto. }
  rewrite Q. cbn [exp_outer_f nr nc]. rewrite bind_assoc. apply check_step.
  { rewrite Z.eqb_eq. rewrite <- (slice_len_iff wp x0 (nc e) v2) by auto. split; auto. }
  intros _. cbn [bind]. rewrite refused_nil. split; [discriminate|tauto].
Qed.
End Lib.
