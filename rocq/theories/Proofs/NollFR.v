(** Zernike modes in double precision: whole arrays, and orders whose factorials overflow. *)
From Coq Require Import ZArith Reals Bool List Lia Lra Psatz.
From Flocq Require Import Core BinarySingleNaN Relative.
From Verif.Base Require Import Py F64 Arr Sums Loop.
From Verif.Model Require Import Math Noll NollF.
From Verif.Spec Require Import MathSpec ZernikeSpec NollFSpec.
From Verif.Proofs Require Import F64P F64N ZernP NollP NollFP NollFQ.
Import ListNotations.
Local Open Scope R_scope.
Local Notation B := (bpow radix2).

(** ** Arrays *)
Lemma orders_ok j : (1 <= j)%Z -> orders_of j (noll_n j + 1) = (noll_n j, noll_m j).
Proof. intros H. unfold orders_of, noll_n, noll_m. replace (noll_np1 j - 1 + 1)%Z with (noll_np1 j) by lia. reflexivity. Qed.
Lemma decode_ok orders : (forall j, In j orders -> (1 <= j <= 2 ^ 48)%Z) ->
  decode_f orders = Ok (map (fun j => (j, (noll_n j, noll_m j))) orders).
Proof.
  induction orders as [|j l IH]; intros H; [reflexivity|]. cbn [decode_f map].
  rewrite noll_binary64 by (apply H; left; auto). cbn [bind]. rewrite IH by (intros; apply H; right; auto). cbn [bind].
  rewrite orders_ok; [reflexivity|]. specialize (H j (or_introl eq_refl)). lia.
Qed.
Section Arrays.
Variables (fhypot fatan2 : f64 -> f64 -> f64) (fcos fsin : f64 -> f64) (fgamma : Z -> f64).
Notation xy := (xyzern_f fhypot fatan2 fcos fsin fgamma).
Notation zv := (zern_value_f fhypot fatan2 fcos fsin fgamma).
Definition max_n (orders : list Z) : Z := zmax_list (map noll_n orders).
Definition max_m (orders : list Z) : Z := zmax_list (map noll_m orders).
Definition usable_orders (orders : list Z) : Prop := orders <> [] /\ forall j, In j orders -> (1 <= j <= 2 ^ 48)%Z.
Lemma xyzern_f_eq x y prad orders : usable_orders orders -> fle prad fzero = false -> nr x = nr y -> nc x = nc y ->
  xy x y prad orders = Ok (map (fun j => amap2 (zv (max_n orders) (max_m orders) prad j (noll_n j) (noll_m j)) x y) orders).
Proof.
  intros [N H] P R1 R2. unfold xyzern_f. rewrite P. cbn [negb guard bind]. unfold same_shape. rewrite R1, R2, !Z.eqb_refl. cbn [andb guard bind].
  rewrite (proj2 (forallb_forall (fun o => 0 <? o)%Z orders)) by (intros j Hj; specialize (H j Hj); apply Z.ltb_lt; lia). cbn [guard bind].
  rewrite decode_ok by exact H. cbn [bind]. destruct (Z.eqb_spec (Z.of_nat (length orders)) 0) as [E|E]; [destruct orders; [congruence|cbn in E; lia]|]. cbn [negb guard bind].
  f_equal. rewrite !map_map. reflexivity.
Qed.
Lemma xyzern_f_in x y prad orders cube k j a : usable_orders orders ->
  xy x y prad orders = Ok cube -> nth_error orders k = Some j -> nth_error cube k = Some a ->
  a = amap2 (zv (max_n orders) (max_m orders) prad j (noll_n j) (noll_m j)) x y /\ (noll_n j <= max_n orders)%Z /\ (noll_m j <= max_m orders)%Z.
Proof.
  intros U E Hj Hk. pose proof (nth_error_In _ _ Hj) as In. unfold xyzern_f in E.
  destruct (negb (fle prad fzero)) eqn:P; [|discriminate]. cbn [guard bind] in E. destruct (same_shape x y) eqn:Sh; [|discriminate]. cbn [guard bind] in E.
  destruct (forallb (fun o => (0 <? o)%Z) orders); [|discriminate]. cbn [guard bind] in E. rewrite decode_ok in E by apply U. cbn [bind] in E.
  destruct (negb (Z.of_nat (length orders) =? 0)%Z); [|discriminate]. cbn [guard bind] in E.
  apply (f_equal (fun r => match r with Ok c => nth_error c k | Err _ => None end)) in E. rewrite Hk in E. rewrite !map_map in E.
  rewrite (map_nth_error _ _ _ Hj) in E. split; [symmetry; exact (f_equal (fun o => match o with Some v => v | None => a end) E)|].
  split; apply zmax_list_ge, in_map_iff; eauto.
Qed.
Lemma xyzern_accurate x y prad orders cube k j a n m r c rho th :
  hypot_ok fhypot -> atan2_ok fatan2 -> trig_ok fcos cos -> trig_ok fsin sin -> gamma_exact fgamma ->
  usable_orders orders -> xy x y prad orders = Ok cube -> nth_error orders k = Some j -> nth_error cube k = Some a ->
  noll_index j n m -> (n <= 22)%Z -> is_finite prad = true -> B (-500) <= fval prad <= B 500 ->
  in_arr x r c -> is_finite (at2 x r c) = true -> is_finite (at2 y r c) = true ->
  polar_of (fval (at2 x r c)) (fval (at2 y r c)) rho th -> rho <= fval prad ->
  nr a = nr x /\ nc a = nc x /\ is_finite (at2 a r c) = true /\
  Rabs (fval (at2 a r c) - noll_zernike j n m (rho / fval prad) th) <= IZR (n + 1) * B (-48) * sqrt (IZR (2 * (n + 1))) * coef_sum n m.
Proof.
  intros Hh Ha Hc Hs Hg U E Hj Hk Hi Hn Fp Hp Hrc Fx Fy Pol Hr.
  destruct (xyzern_f_in _ _ _ _ _ _ _ _ U E Hj Hk) as (-> & N1 & N2).
  destruct (proj2 (noll_decode_iff j n m (noll_index_pos _ _ _ Hi)) Hi) as [En Em]. rewrite En in *. rewrite Em in *.
  split; auto. split; auto. cbn [amap2 at2].
  exact (mode_near fhypot fatan2 fcos fsin fgamma Hh Ha Hc Hs Hg _ _ prad j n m _ _ rho th Hi Hn N1 N2 Fx Fy Fp Hp Pol Hr).
Qed.

(** ** Overflow *)
Lemma nf_mul_l x y : is_finite x = false -> is_finite (fmul x y) = false.
Proof. destruct x as [s|s| |s p e Hb], y as [s'|s'| |s' p' e' Hb']; intros H; try discriminate; reflexivity. Qed.
Lemma nf_mul_r x y : is_finite y = false -> is_finite (fmul x y) = false.
Proof. destruct x as [s|s| |s p e Hb], y as [s'|s'| |s' p' e' Hb']; intros H; try discriminate; reflexivity. Qed.
Lemma nf_div x y : is_finite x = false -> is_finite (fdiv x y) = false.
Proof. destruct x as [s|s| |s p e Hb], y as [s'|s'| |s' p' e' Hb']; intros H; try discriminate; reflexivity. Qed.
Lemma nf_add_l x y : is_finite x = false -> is_finite (fadd x y) = false.
Proof. destruct x as [s|s| |s p e Hb], y as [s'|s'| |s' p' e' Hb']; intros H; try discriminate; try reflexivity; destruct s, s'; reflexivity. Qed.
Lemma nf_add_r x y : is_finite y = false -> is_finite (fadd x y) = false.
Proof. destruct x as [s|s| |s p e Hb], y as [s'|s'| |s' p' e' Hb']; intros H; try discriminate; try reflexivity; destruct s, s'; reflexivity. Qed.
Lemma fin_mul x y : is_finite (fmul x y) = true -> is_finite x = true /\ is_finite y = true /\ fval (fmul x y) = rnd64 (fval x * fval y).
Proof.
  intros F. destruct (is_finite x) eqn:Fx; [|rewrite nf_mul_l in F by auto; discriminate]. destruct (is_finite y) eqn:Fy; [|rewrite nf_mul_r in F by auto; discriminate].
  split; auto. split; auto. destruct (Rlt_bool_spec (Rabs (rnd64 (fval x * fval y))) (B 1024)) as [H|H]; [apply fmul_spec; auto|exfalso].
  pose proof (Bmult_correct prec emax Hprec Hmax mode_NE x y) as C.
  change (round radix2 (SpecFloat.fexp prec emax) (round_mode mode_NE) (B2R x * B2R y)) with (rnd64 (fval x * fval y)) in C.
  rewrite Rlt_bool_false in C by exact H. unfold fmul in F. destruct (Bmult mode_NE x y); try discriminate.
Qed.
Definition low : R := 1 - B (-30).
Definition floor_of (f : Z) : R := zfact f * low ^ Z.to_nat (f + 1).
(** At least the factorial, up to the rounding errors, unless it has overflowed. *)
Definition big (f : Z) (v : f64) : Prop := is_finite v = true -> floor_of f <= Rabs (fval v).
Lemma low_range : 0 < low < 1 /\ 1 - 2 * u >= low.
Proof.
  unfold low. assert (0 < B (-30) <= / 1000).
  { split; [apply bpow_gt_0|]. change (B (-30)) with (/ IZR (2 ^ 30)). apply Rinv_le_contravar; [lra|apply IZR_le; vm_compute; discriminate]. }
  assert (2 * u <= B (-30)) by (unfold u; replace (2 * B (-53)) with (B (1 + -53)) by (rewrite bpow_plus; reflexivity); apply bpow_le; lia). lra.
Qed.
Lemma rnd_floor p : 1 <= Rabs p -> low * Rabs p <= Rabs (rnd64 p).
Proof.
  intros H. pose proof (rnd_u p) as R1. pose proof u_pos. pose proof u_small. destruct low_range as [L1 L2].
  assert (Rabs p <= Rabs (rnd64 p) + Rabs (rnd64 p - p)).
  { replace p with (rnd64 p - (rnd64 p - p)) at 1 by ring. eapply Rle_trans; [apply Rabs_triang|]. rewrite Rabs_Ropp. lra. }
  assert (u * u <= u * Rabs p) by (apply Rmult_le_compat_l; lra). assert (low * Rabs p <= (1 - 2 * u) * Rabs p) by (apply Rmult_le_compat_r; lra). lra.
Qed.
Lemma zfact_ge_one f : 1 <= zfact f.
Proof. unfold zfact. change 1 with (INR 1). apply le_INR. pose proof (lt_O_fact (Z.to_nat f)). lia. Qed.
Lemma low_pow k : (k <= 1000)%nat -> / 2 <= low ^ k.
Proof.
  intros H. destruct low_range as [L _]. assert (G : forall k, 1 - INR k * (1 - low) <= low ^ k).
  { intros i. induction i as [|i IH]; [cbn; lra|]. rewrite S_INR. cbn [pow]. pose proof (pos_INR i) as Pi.
    assert (low * (1 - INR i * (1 - low)) <= low * low ^ i) by (apply Rmult_le_compat_l; lra). assert (0 <= INR i * ((1 - low) * (1 - low))) by (apply Rmult_le_pos; [lra|apply Rmult_le_pos; lra]). lra. }
  eapply Rle_trans; [|apply G]. assert (K : INR k <= 1000) by (rewrite INR_IZR_INZ; apply IZR_le; lia). pose proof (pos_INR k).
  assert (E : 1 - low <= / 1000000).
  { unfold low. replace (1 - (1 - B (-30))) with (B (-30)) by ring. change (B (-30)) with (/ IZR (2 ^ 30)). apply Rinv_le_contravar; [lra|apply IZR_le; vm_compute; discriminate]. }
  assert (INR k * (1 - low) <= 1000 * / 1000000) by (apply Rmult_le_compat; lra). lra.
Qed.
Lemma floor_succ f : (0 <= f)%Z -> floor_of (f + 1) = IZR (f + 1) * (low * floor_of f).
Proof.
  intros H. unfold floor_of. rewrite zfact_succ by lia. replace (Z.to_nat (f + 1 + 1)) with (S (Z.to_nat (f + 1))) by lia. cbn [pow]. ring.
Qed.
Lemma floor_mono f g : (2 <= f <= g)%Z -> floor_of f <= floor_of g.
Proof.
  intros H. replace g with (f + (g - f))%Z by lia. assert (D : (0 <= g - f)%Z) by lia. revert D. generalize (g - f)%Z. intros d Hd. pattern d. apply natlike_ind; auto; [rewrite Z.add_0_r; lra|].
  intros k Hk IH. replace (f + Z.succ k)%Z with (f + k + 1)%Z by lia. rewrite floor_succ by lia. eapply Rle_trans; [exact IH|].
  assert (F0 : 0 < floor_of (f + k)) by (unfold floor_of; apply Rmult_lt_0_compat; [apply zfact_pos|apply pow_lt; apply low_range]).
  assert (I3 : 3 <= IZR (f + k + 1)) by (apply IZR_le; lia). pose proof (low_pow 1 ltac:(lia)) as L1. rewrite pow_1 in L1.
  rewrite <- Rmult_assoc. rewrite <- (Rmult_1_l (floor_of (f + k))) at 1. apply Rmult_le_compat_r; [lra|]. assert (3 * / 2 <= IZR (f + k + 1) * low) by (apply Rmult_le_compat; lra). lra.
Qed.
Lemma floor_one f : (2 <= f)%Z -> 1 <= floor_of f.
Proof.
  intros H. eapply Rle_trans; [|apply (floor_mono 2 f); lia]. unfold floor_of. change (Z.to_nat (2 + 1)) with 3%nat. pose proof (low_pow 3 ltac:(lia)).
  replace (zfact 2) with 2 by (rewrite zfact_fprod; reflexivity). lra.
Qed.
Lemma floor_huge f : (171 <= f)%Z -> B 1024 <= floor_of f.
Proof.
  intros H. eapply Rle_trans; [|apply (floor_mono 171 f); lia]. unfold floor_of. change (Z.to_nat (171 + 1)) with 172%nat. pose proof (low_pow 172 ltac:(lia)) as L.
  apply Rle_trans with (zfact 171 * / 2); [|apply Rmult_le_compat_l; [apply Rlt_le, zfact_pos|exact L]].
  rewrite zfact_fprod. change (B 1024) with (IZR (2 ^ 1024)). assert (E : (2 ^ 1024 * 2 <= fprod (Z.to_nat 171))%Z) by (vm_compute; discriminate).
  apply IZR_le in E. rewrite mult_IZR in E. lra.
Qed.
Lemma big_step f v z : (2 <= f)%Z -> (f + 1 <= 2 ^ 53)%Z -> Z.abs z = (f + 1)%Z -> big f v -> big (f + 1) (fmul v (fofZ z)).
Proof.
  intros Hf Hb Hz V F. destruct (fin_mul _ _ F) as (Fv & Fz & ->). specialize (V Fv). destruct (fofZ_spec z ltac:(lia)) as [-> _].
  pose proof (floor_one f Hf) as F1. assert (P : Rabs (fval v * IZR z) = IZR (f + 1) * Rabs (fval v)) by (rewrite Rabs_mult, <- abs_IZR, Hz; ring).
  assert (I : 1 <= IZR (f + 1)) by (apply IZR_le; lia). assert (G : IZR (f + 1) * floor_of f <= Rabs (fval v * IZR z)) by (rewrite P; apply Rmult_le_compat_l; lra).
  assert (1 * 1 <= IZR (f + 1) * floor_of f) by (apply Rmult_le_compat; lra).
  eapply Rle_trans; [|apply rnd_floor; lra]. rewrite floor_succ by lia. destruct low_range as [L _].
  replace (IZR (f + 1) * (low * floor_of f)) with (low * (IZR (f + 1) * floor_of f)) by ring. apply Rmult_le_compat_l; lra.
Qed.
Lemma big_start g f z : gamma_near g -> (2 <= f)%Z -> Z.abs z = 1%Z -> big f (fmul (g (f + 1)%Z) (fofZ z)).
Proof.
  intros [G1 G2] Hf Hz F. destruct (fin_mul _ _ F) as (Fg & Fz & ->). destruct (Z_le_gt_dec (f + 1) 171) as [H|H]; [|rewrite G2 in Fg by lia; discriminate].
  destruct (G1 (f + 1)%Z ltac:(lia)) as [_ V]. replace (f + 1 - 1)%Z with f in V by lia. destruct (fofZ_spec z ltac:(lia)) as [-> _]. destruct low_range as [L _].
  assert (Lf : low * zfact f <= Rabs (fval (g (f + 1)%Z))).
  { pose proof (zfact_pos f). assert (zfact f <= Rabs (fval (g (f + 1)%Z)) + Rabs (fval (g (f + 1)%Z) - zfact f)).
    { rewrite <- (Rabs_right (zfact f)) at 1 by lra. replace (zfact f) with (fval (g (f + 1)%Z) - (fval (g (f + 1)%Z) - zfact f)) at 1 by ring. eapply Rle_trans; [apply Rabs_triang|]. rewrite Rabs_Ropp. lra. }
    unfold low. lra. }
  assert (P : Rabs (fval (g (f + 1)%Z) * IZR z) = Rabs (fval (g (f + 1)%Z))) by (rewrite Rabs_mult, <- abs_IZR, Hz; ring).
  assert (L1 : 1 <= low * zfact f).
  { eapply Rle_trans; [apply (floor_one f Hf)|]. unfold floor_of. rewrite Rmult_comm. apply Rmult_le_compat_r; [apply Rlt_le, zfact_pos|].
    replace (Z.to_nat (f + 1)) with (S (Z.to_nat f)) by lia. cbn [pow]. apply Rle_trans with (low * 1); [|lra]. apply Rmult_le_compat_l; [lra|]. rewrite <- (pow1 (Z.to_nat f)). apply pow_incr. lra. }
  eapply Rle_trans; [|apply rnd_floor; rewrite P; lra]. rewrite P. apply Rle_trans with (low * (low * zfact f)); [|apply Rmult_le_compat_l; lra].
  unfold floor_of. replace (Z.to_nat (f + 1)) with (S (S (Z.to_nat f - 1))) by lia. cbn [pow].
  replace (low * (low * zfact f)) with (zfact f * (low * (low * 1))) by ring. apply Rmult_le_compat_l; [apply Rlt_le, zfact_pos|]. apply Rmult_le_compat_l; [lra|]. apply Rmult_le_compat_l; [lra|].
  rewrite <- (pow1 (Z.to_nat f - 1)). apply pow_incr. lra.
Qed.
Lemma big_over f v : (171 <= f)%Z -> big f v -> is_finite v = false.
Proof.
  intros Hf V. destruct (is_finite v) eqn:F; auto. specialize (V F). pose proof (floor_huge f Hf). pose proof (fval_bound v). lra.
Qed.
Lemma num_over g n m : gamma_near g -> (0 <= m <= n)%Z -> Z.Even (n - m) -> (171 <= n <= 2 ^ 53)%Z -> is_finite (fnum (coef_tables_f g n m) 0) = false.
Proof.
  intros Hg Hm He Hn. apply (big_over n); [lia|]. unfold coef_tables_f. set (K := ((n - m) / 2)%Z). assert (HK : (n - m = 2 * K)%Z) by (destruct He as [q Hq]; unfold K; lia).
  match goal with |- big n (fnum (for_range 1 (K + 1) ?body ?t0) 0) => pose proof (for_range_inv (fun k t => big (n - (K - (k - 1))) (fnum t (K - (k - 1))%Z)) 1 (K + 1) body t0) as G end.
  cbv beta in G. replace (n - (K - (K + 1 - 1)))%Z with n in G by lia. replace (K - (K + 1 - 1))%Z with 0%Z in G by lia. apply G; [lia| |].
  - replace (K - (1 - 1))%Z with K by lia. cbn [fnum]. rewrite upd_same. apply big_start; auto; [lia|].
    assert (K0 : (0 <= K)%Z) by lia. rewrite <- (Z2Nat.id K K0). clear. induction (Z.to_nat K) as [|i IH]; [reflexivity|]. rewrite pow_m1_S. lia.
  - intros k t Hk V. cbn [fnum]. replace (K - (k + 1 - 1))%Z with (K - k)%Z by lia. rewrite upd_same.
    replace (n - (K - k))%Z with (n - (K - (k - 1)) + 1)%Z by lia. replace (K - k + 1)%Z with (K - (k - 1))%Z by lia. apply big_step; auto; lia.
Qed.
Lemma mode_over nmax mmax prad j n m x y : gamma_near fgamma -> (0 <= m <= n)%Z -> Z.Even (n - m) -> (171 <= n <= 2 ^ 53)%Z ->
  is_finite (zv nmax mmax prad j n m x y) = false.
Proof.
  intros Hg Hm He Hn. unfold zern_value_f. apply nf_mul_r, nf_mul_l. unfold radial_value_f. set (r := fdiv (fhypot x y) prad).
  set (body := fun k rp => fadd rp (fmul (coef_f fgamma n m k) (rpow_table_f nmax r (n - 2 * k)))).
  pose proof (for_range_inv (fun k s => (1 <= k)%Z -> is_finite s = false) 0 ((n - m) / 2 + 1) body fzero) as G. apply G; [lia|lia| |lia].
  intros k s Hk IH _. unfold body. destruct (Z.eq_dec k 0) as [->|N].
  - apply nf_add_r, nf_mul_l. unfold coef_f. apply nf_div, num_over; auto.
  - apply nf_add_l, IH. lia.
Qed.
Lemma xyzern_over x y prad orders cube k j a n m r c : gamma_near fgamma -> usable_orders orders -> xy x y prad orders = Ok cube ->
  nth_error orders k = Some j -> nth_error cube k = Some a -> noll_index j n m -> (171 <= n)%Z -> is_finite (at2 a r c) = false.
Proof.
  intros Hg U E Hj Hk Hi Hn. destruct (xyzern_f_in _ _ _ _ _ _ _ _ U E Hj Hk) as (-> & _ & _).
  destruct (proj2 (noll_decode_iff j n m (noll_index_pos _ _ _ Hi)) Hi) as [En Em]. rewrite En, Em. destruct Hi as (Hm & He & Hi).
  apply mode_over; auto. split; auto. pose proof (proj2 U j (nth_error_In _ _ Hj)) as Hj'. nia.
Qed.
(** The combination of modes. *)
Lemma fold_nf nA l : forall acc i j, is_finite (at2 acc i j) = false ->
  is_finite (at2 (fold_left (fun acc cz => Arr nA nA (fun i j => fadd (at2 acc i j) (fmul (fst cz) (at2 (snd cz) i j)))) l acc) i j) = false.
Proof. induction l as [|p l IH]; intros acc i j H; [exact H|]. cbn [fold_left]. apply IH. cbn [at2]. apply nf_add_l, H. Qed.
Lemma fold_nf_in nA l : forall acc i j c z, In (c, z) l -> is_finite (at2 z i j) = false ->
  is_finite (at2 (fold_left (fun acc cz => Arr nA nA (fun i j => fadd (at2 acc i j) (fmul (fst cz) (at2 (snd cz) i j)))) l acc) i j) = false.
Proof.
  induction l as [|p l IH]; intros acc i j c z Hin H; [destruct Hin|]. destruct Hin as [E|Hi]; cbn [fold_left].
  - subst p. apply fold_nf. cbn [at2 fst snd]. apply nf_add_r, nf_mul_r, H.
  - eapply IH; eauto.
Qed.
Lemma in_combine_nth {X Y} (l : list X) (l' : list Y) k b : length l = length l' -> nth_error l' k = Some b -> exists a, In (a, b) (combine l l').
Proof.
  revert l' k. induction l as [|a l IH]; intros [|b' l'] k L H; try discriminate; [destruct k; discriminate|]. destruct k as [|k]; cbn in *.
  - injection H as ->. eauto.
  - injection L as L. destruct (IH l' k L H) as [a' Ha]. eauto.
Qed.
Lemma gen_over inds coefs xo yo nBeam nArray out j n m r c : gamma_near fgamma -> usable_orders inds ->
  gen_zernikes_f fhypot fatan2 fcos fsin fgamma inds coefs xo yo nBeam nArray = Ok out -> In j inds -> noll_index j n m -> (171 <= n)%Z -> is_finite (at2 out r c) = false.
Proof.
  intros Hg U E Hj Hi Hn. unfold gen_zernikes_f in E.
  destruct (Z.eqb_spec (Z.of_nat (length inds)) (Z.of_nat (length coefs))) as [L|L]; [|discriminate]. cbn [guard bind] in E.
  destruct (negb (fle nBeam fzero)); [|discriminate]. cbn [guard bind] in E. destruct (0 <? nArray)%Z; [|discriminate]. cbn [guard bind] in E.
  destruct (if (nArray =? 1000000)%Z then auto_size_f nBeam xo yo else Ok nArray) as [nA|]; [|discriminate]. cbn [bind] in E.
  match type of E with bind ?q _ = _ => destruct q as [cube|] eqn:Ec; [|discriminate] end. cbn [bind] in E.
  apply (f_equal (fun q => match q with Ok v => is_finite (at2 v r c) | Err _ => false end)) in E. cbv beta iota in E. refine (eq_trans (eq_sym E) _). clear E.
  destruct (In_nth_error _ _ Hj) as [k Hk].
  assert (Lc : length cube = length inds).
  { unfold xyzern_f in Ec. destruct (negb (fle (fdiv nBeam (fofZ 2)) fzero)); [|discriminate]. cbn [guard bind] in Ec. match type of Ec with bind (guard ?b _) _ = _ => destruct b; [|discriminate] end. cbn [guard bind] in Ec.
    match type of Ec with bind (guard ?b _) _ = _ => destruct b; [|discriminate] end. cbn [guard bind] in Ec. rewrite decode_ok in Ec by apply U. cbn [bind] in Ec.
    match type of Ec with bind (guard ?b _) _ = _ => destruct b; [|discriminate] end. cbn [guard bind] in Ec.
    apply (f_equal (fun q => match q with Ok v => length v | Err _ => O end)) in Ec. rewrite <- Ec, !map_length. reflexivity. }
  destruct (nth_error cube k) as [z|] eqn:Hz; [|apply nth_error_None in Hz; pose proof (proj1 (nth_error_Some inds k) ltac:(congruence)); lia].
  destruct (in_combine_nth coefs cube k z ltac:(lia) Hz) as [cf Hin].
  eapply fold_nf_in; [exact Hin|]. eapply xyzern_over; eauto.
Qed.
End Arrays.
