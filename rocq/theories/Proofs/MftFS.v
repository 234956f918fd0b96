(** Error of the matrix Fourier transforms in double precision. *)
From Coq Require Import ZArith Reals Bool List Lia Lra Psatz.
From Coquelicot Require Import Complex.
From Flocq Require Import Core BinarySingleNaN Relative.
From Verif.Base Require Import Py F64 Arr Vec Sums CSum.
From Verif.Model Require Import ShapesG Mft MftF.
From Verif.Spec Require Import MftSpec MftFSpec.
From Verif.Proofs Require Import F64P F64N PiP ShapesGA NollFP MftP MftFP MftFQ MftFR.
Import ListNotations.
Local Open Scope R_scope.
Local Notation B := (bpow radix2).
Local Notation u := NollFP.u.

(** Real-number bookkeeping. *)
Lemma total_bound n m tr tc X eps T D : (0 < n <= 2 ^ 20)%Z -> (0 < m <= 2 ^ 20)%Z -> 0 <= tr -> 0 <= tc -> 0 <= X <= T -> 0 < D <= B 100 ->
  let sum := (56 * u * tr + 4 * u) + (56 * u * tc + 4 * u) + IZR (n + 4) * B (-51) + IZR (m + 4) * B (-51) in
  sum <= 4 / 100 -> eps = 11 / 10 * sum * T + 2 * IZR (m + 1) * B (-1000) ->
  (63 / 10 * u * (X + eps) + eps) * D ^ 2 + B (-800) <= (B (-47) * (tr + tc + 1) + B (-50) * IZR (n + m)) * (T * D ^ 2) + B (-700).
Proof.
  intros Hn Hm Htr Htc HX HD sum Hs He. pose proof u_small as Us. pose proof u_pos as U0. rewrite (upow 6 (-47)), (upow 3 (-50)) by reflexivity.
  unfold sum in *. rewrite (upow 2 (-51)) in * by reflexivity. rewrite !plus_IZR in *. set (N := IZR n) in *. set (M := IZR m) in *.
  assert (N1 : 1 <= N <= 1048576) by (split; [apply IZR_le; lia|apply (IZR_le n 1048576); lia]). assert (M1 : 1 <= M <= 1048576) by (split; [apply IZR_le; lia|apply (IZR_le m 1048576); lia]).
  clear sum. set (q := 11 / 10 * (56 * u * tr + 4 * u + (56 * u * tc + 4 * u) + (N + 4) * (2 ^ 2 * u) + (M + 4) * (2 ^ 2 * u))) in *.
  set (eta := 2 * (M + 1) * B (-1000)) in *. pose proof (bpow_gt_0 radix2 (-1000)) as E0.
  assert (Eta : 0 <= eta <= B 22 * B (-1000)).
  { unfold eta. split; [apply Rmult_le_pos; lra|]. apply Rmult_le_compat_r; [lra|]. change (B 22) with 4194304. lra. }
  assert (Q1 : q <= u * (62 * (tr + tc) + 44 / 10 * (N + M) + 44)).
  { unfold q. assert (0 <= u * tr) by (apply Rmult_le_pos; lra). assert (0 <= u * tc) by (apply Rmult_le_pos; lra). lra. }
  assert (Q0 : 0 <= q <= 5 / 100).
  { split; [|unfold q; lra]. unfold q. assert (0 <= u * tr) by (apply Rmult_le_pos; lra). assert (0 <= u * tc) by (apply Rmult_le_pos; lra). assert (0 <= u * N) by (apply Rmult_le_pos; lra). assert (0 <= u * M) by (apply Rmult_le_pos; lra). lra. }
  assert (A1 : 63 / 10 * u * (X + eps) + eps <= (u * 7 + q) * T + 2 * eta).
  { assert (T0 : 0 <= T) by lra. assert (QT : q * T <= 5 / 100 * T) by (apply Rmult_le_compat_r; lra).
    assert (X + eps <= 106 / 100 * T + eta) by (unfold q in *; lra).
    assert (63 / 10 * u * (X + eps) <= 63 / 10 * u * (106 / 100 * T + eta)) by (apply Rmult_le_compat_l; lra).
    assert (0 <= u * T) by (apply Rmult_le_pos; lra). assert (63 / 10 * u * eta <= eta) by (assert (63 / 10 * u * eta <= 1 * eta) by (apply Rmult_le_compat_r; lra); lra).
    unfold q in *; lra. }
  assert (D2 : 0 <= D ^ 2 <= B 200).
  { split; [apply pow2_ge_0|]. change 200%Z with (100 + 100)%Z. rewrite bpow_plus. replace (D ^ 2) with (D * D) by ring. apply Rmult_le_compat; lra. }
  assert (A2 : (63 / 10 * u * (X + eps) + eps) * D ^ 2 <= ((u * 7 + q) * T + 2 * eta) * D ^ 2) by (apply Rmult_le_compat_r; lra).
  assert (A3 : 2 * eta * D ^ 2 <= B (-777)).
  { apply Rle_trans with (B 1 * (B 22 * B (-1000)) * B 200); [|rewrite <- !bpow_plus; apply bpow_le; lia]. apply Rmult_le_compat; try lra. change (B 1) with 2. lra. }
  assert (A4 : B (-777) + B (-800) <= B (-700)).
  { assert (B (-777) <= B (-701)) by (apply bpow_le; lia). assert (B (-800) <= B (-701)) by (apply bpow_le; lia). assert (E : B (-700) = 2 * B (-701)) by (change (-700)%Z with (1 + -701)%Z; rewrite bpow_plus; reflexivity). lra. }
  assert (TD : 0 <= T * D ^ 2) by (apply Rmult_le_pos; lra).
  assert (A5 : (u * 7 + q) * (T * D ^ 2) <= (2 ^ 6 * u * (tr + tc + 1) + 2 ^ 3 * u * (N + M)) * (T * D ^ 2)).
  { apply Rmult_le_compat_r; auto. assert (0 <= u * (tr + tc)) by (apply Rmult_le_pos; lra). assert (0 <= u * (N + M)) by (apply Rmult_le_pos; lra). lra. }
  lra.
Qed.

Section Lib.
Variables (fcexp : c128 -> c128) (fdot : arr c128 -> arr c128 -> arr c128).
Hypotheses (Hexp : cexp_ok fcexp) (Hdot : dot_ok fdot).
Definition on_grid (x : vec f64) (k : Z -> Z) (p : f64) (n : Z) : Prop :=
  (0 < n <= 2 ^ 20)%Z /\ usable_sampling p /\ forall i, (0 <= i < vlen x)%Z -> vat x i = fmul (fofZ (k i)) (step p n) /\ (Z.abs (k i) <= 2 ^ 20)%Z.

Lemma transform_near s e p q n m h w kr kc ku kv xr xc xu xv : s = 1%Z \/ s = (-1)%Z -> usable_field e ->
  vlen xr = nr e -> vlen xc = nc e -> on_grid xr kr p n -> on_grid xc kc p m -> on_grid xu ku q h -> on_grid xv kv q w ->
  exists o, (do t <- mdot_f fdot (exp_outer_f fcexp (2 * s) xu xr) e; do t <- mdot_f fdot t (exp_outer_f fcexp (2 * s) xc xv);
             Ok (ascale_f (step p m) (ascale_f (step p n) t))) = Ok o /\ nr o = vlen xu /\ nc o = vlen xv /\
  forall a b tr tc, (0 <= a < vlen xu)%Z -> (0 <= b < vlen xv)%Z ->
    (forall i, (0 <= i < nr e)%Z -> Rabs (IZR (ku a) / fval q * (IZR (kr i) / fval p)) <= tr) -> tr <= B 30 ->
    (forall j, (0 <= j < nc e)%Z -> Rabs (IZR (kv b) / fval q * (IZR (kc j) / fval p)) <= tc) -> tc <= B 30 ->
    cfin (at2 o a b) /\
    Cmod (cval (at2 o a b) - csum2 (fun i j => cval (at2 e i j) * cis (IZR s * 2 * PI * (IZR (ku a) / fval q * (IZR (kr i) / fval p) + IZR (kv b) / fval q * (IZR (kc j) / fval p)))%R) (nr e) (nc e)
            * RtoC (/ fval p ^ 2))%C <=
      (B (-47) * (tr + tc + 1) + B (-50) * IZR (nr e + nc e)) * (total e / fval p ^ 2) + B (-700).
Proof.
  intros Hs (Hn & Hm & Hf & Ht) Lr Lc (Sn & Up & Gr) (Sm & _ & Gc) (Sh & Uq & Gu) (Sw & _ & Gv).
  set (rm := exp_outer_f fcexp (2 * s) xu xr). set (cm := exp_outer_f fcexp (2 * s) xc xv).
  destruct (Hdot rm e) as (R1 & C1 & D1); [exact Lr|]. destruct (Hdot (fdot rm e) cm) as (R2 & C2 & D2); [rewrite C1; symmetry; exact Lc|].
  unfold mdot_f, guard. change (nc rm) with (vlen xr). rewrite Lr, Z.eqb_refl. cbn [bind]. rewrite C1. change (nr cm) with (vlen xc). rewrite Lc, Z.eqb_refl. cbn [bind].
  eexists. split; [reflexivity|]. cbn [ascale_f amap nr nc]. split; [rewrite R2, R1; reflexivity|]. split; [rewrite C2; reflexivity|].
  intros a b tr tc Ha Hb Hr Htr Hc Htc. cbn [ascale_f amap at2]. pose proof u_small as Us. pose proof u_pos as U0.
  assert (Tr0 : 0 <= tr) by (eapply Rle_trans; [apply Rabs_pos|apply (Hr 0%Z); lia]). assert (Tc0 : 0 <= tc) by (eapply Rle_trans; [apply Rabs_pos|apply (Hc 0%Z); lia]).
  (* kernels *)
  destruct (Gu a Ha) as [Va Ka]. destruct (Gv b Hb) as [Vb Kb].
  set (X := fun i => IZR (ku a) / fval q * (IZR (kr i) / fval p)) in *. set (Y := fun j => IZR (kv b) / fval q * (IZR (kc j) / fval p)) in *.
  assert (Kr : forall i, (0 <= i < nr e)%Z -> cfin (at2 rm a i) /\ Cmod (cval (at2 rm a i) - cis (IZR s * 2 * PI * X i))%C <= 56 * u * tr + 4 * u).
  { intros i Hi. destruct (Gr i ltac:(lia)) as [Vi Ki]. unfold rm, exp_outer_f. cbn [at2]. rewrite Va, Vi. apply kernel_near; auto. }
  assert (Kc : forall j, (0 <= j < nc e)%Z -> cfin (at2 cm j b) /\ Cmod (cval (at2 cm j b) - cis (IZR s * 2 * PI * Y j))%C <= 56 * u * tc + 4 * u).
  { intros j Hj. destruct (Gc j ltac:(lia)) as [Vj Kj]. unfold cm, exp_outer_f. cbn [at2]. rewrite Vb, Vj. replace (Y j) with (IZR (kc j) / fval p * (IZR (kv b) / fval q)) by (unfold Y; ring).
    apply kernel_near; auto. rewrite Rmult_comm. apply Hc; auto. }
  (* sizes *)
  assert (U30 : u * B 30 <= / 1000000) by (unfold u; rewrite <- bpow_plus; change (B (-53 + 30)) with (/ IZR (2 ^ 23)); apply Rinv_le_contravar; [lra|apply IZR_le; lia]).
  assert (Utr : u * tr <= / 1000000) by (eapply Rle_trans; [apply Rmult_le_compat_l; [lra|exact Htr]|exact U30]).
  assert (Utc : u * tc <= / 1000000) by (eapply Rle_trans; [apply Rmult_le_compat_l; [lra|exact Htc]|exact U30]).
  assert (Utr0 : 0 <= u * tr) by (apply Rmult_le_pos; lra). assert (Utc0 : 0 <= u * tc) by (apply Rmult_le_pos; lra).
  assert (Gb : forall k, (0 < k <= 2 ^ 20)%Z -> 0 <= IZR (k + 4) * B (-51) <= / 1000).
  { intros k Hk. rewrite (upow 2 (-51)), plus_IZR by reflexivity. assert (1 <= IZR k <= 1048576) by (split; [apply IZR_le; lia|apply (IZR_le k 1048576); lia]).
    split; [apply Rmult_le_pos; lra|]. nra. }
  pose proof (Gb _ Hn) as Gn. pose proof (Gb _ Hm) as Gm.
  set (kr' := 56 * u * tr + 4 * u) in *. set (kc' := 56 * u * tc + 4 * u) in *. set (gn := IZR (nr e + 4) * B (-51)) in *. set (gm := IZR (nc e + 4) * B (-51)) in *.
  assert (Kr1 : 0 <= kr' <= / 1000) by (unfold kr'; lra). assert (Kc1 : 0 <= kc' <= / 1000) by (unfold kc'; lra).
  assert (Mr : forall i, (0 <= i < nr e)%Z -> Cmod (cval (at2 rm a i)) <= 101 / 100).
  { intros i Hi. destruct (Kr i Hi) as [_ K]. pose proof (Cmod_near (cval (at2 rm a i)) (cis (IZR s * 2 * PI * X i))) as Q. rewrite Cmod_cis in Q. lra. }
  assert (Mc : forall j, (0 <= j < nc e)%Z -> Cmod (cval (at2 cm j b)) <= 101 / 100).
  { intros j Hj. destruct (Kc j Hj) as [_ K]. pose proof (Cmod_near (cval (at2 cm j b)) (cis (IZR s * 2 * PI * Y j))) as Q. rewrite Cmod_cis in Q. lra. }
  set (sj := fun j => rsum (fun i => Cmod (cval (at2 e i j))) (nr e)).
  assert (Sj0 : forall j, 0 <= sj j) by (intros; apply rsum_nonneg; intros; apply Cmod_ge_0).
  assert (St : total e = rsum sj (nc e)) by (unfold total; rewrite rsum2_swap; reflexivity).
  assert (T0 : 0 <= total e) by (rewrite St; apply rsum_nonneg; auto).
  assert (Sz : forall j, (0 <= j < nc e)%Z -> rsum (fun i => Cmod (cval (at2 rm a i)) * Cmod (cval (at2 e i j))) (nr e) <= 101 / 100 * sj j).
  { intros j Hj. unfold sj. rewrite <- rsum_scal. apply rsum_le. intros i Hi. apply Rmult_le_compat_r; [apply Cmod_ge_0|auto]. }
  assert (Sl : forall j, (0 <= j < nc e)%Z -> sj j <= total e) by (intros j Hj; rewrite St; apply (rsum_term_le sj (nc e) j); auto).
  assert (B5 : 8 * B 500 + 1 <= B 600).
  { assert (1 <= B 500) by (change 1 with (B 0); apply bpow_le; lia). change 600%Z with (100 + 500)%Z. rewrite bpow_plus. assert (16 <= B 100) by (change 16 with (B 4); apply bpow_le; lia). nra. }
  pose proof (bpow_gt_0 radix2 (-1000)) as Et0. assert (Et1 : B (-1000) <= B (-40)) by (apply bpow_le; lia).
  (* products of matrices *)
  assert (P1 : forall j, (0 <= j < nc e)%Z -> cfin (at2 (fdot rm e) a j) /\
     Cmod (cval (at2 (fdot rm e) a j) - csum (fun i => cval (at2 rm a i) * cval (at2 e i j)) (nr e))%C <= gn * rsum (fun i => Cmod (cval (at2 rm a i)) * Cmod (cval (at2 e i j))) (nr e) + B (-1000)).
  { intros j Hj. specialize (D1 a j). change (nc rm) with (vlen xr) in D1. change (nr rm) with (vlen xu) in D1. rewrite Lr in D1. apply D1; auto; try lia.
    - intros i Hi. split; [apply Kr; auto|apply Hf; auto].
    - pose proof (Sz j Hj). pose proof (Sl j Hj). lra. }
  assert (M1 : forall j, (0 <= j < nc e)%Z -> Cmod (cval (at2 (fdot rm e) a j)) <= 2 * sj j + B (-1000)).
  { intros j Hj. destruct (P1 j Hj) as [_ K]. pose proof (Cmod_near (cval (at2 (fdot rm e) a j)) (csum (fun i => cval (at2 rm a i) * cval (at2 e i j)) (nr e))%C) as Q.
    pose proof (Cmod_csum (fun i => cval (at2 rm a i) * cval (at2 e i j))%C (nr e)) as Q2. pose proof (Sz j Hj) as Q3. pose proof (Sj0 j) as Q4.
    assert (Q5 : rsum (fun k => Cmod (cval (at2 rm a k) * cval (at2 e k j))%C) (nr e) = rsum (fun i => Cmod (cval (at2 rm a i)) * Cmod (cval (at2 e i j))) (nr e)) by (apply rsum_ext; intros; apply Cmod_mult).
    cbv beta in Q2. rewrite Q5 in Q2. set (y := rsum (fun i => Cmod (cval (at2 rm a i)) * Cmod (cval (at2 e i j))) (nr e)) in *.
    assert (Y0 : 0 <= y) by (apply rsum_nonneg; intros; apply Rmult_le_pos; apply Cmod_ge_0). assert (gn * y <= / 1000 * y) by (apply Rmult_le_compat_r; lra). lra. }
  assert (Sz2 : rsum (fun j => Cmod (cval (at2 (fdot rm e) a j)) * Cmod (cval (at2 cm j b))) (nc e) <= B 600).
  { apply Rle_trans with (rsum (fun j => 4 * sj j + 2 * B (-1000)) (nc e)).
    - apply rsum_le. intros j Hj. apply Rle_trans with ((2 * sj j + B (-1000)) * (101 / 100)); [apply Rmult_le_compat; auto; apply Cmod_ge_0|]. pose proof (Sj0 j). lra.
    - rewrite rsum_add, rsum_scal, rsum_const, <- St by lia. assert (E : IZR (nc e) * (2 * B (-1000)) <= 1); [|lra].
      apply Rle_trans with (B 20 * (B 1 * B (-40))); [|rewrite <- !bpow_plus; change 1 with (B 0); apply bpow_le; lia].
      apply Rmult_le_compat; [apply IZR_le; lia|lra|change (B 20) with (IZR (2 ^ 20)); apply IZR_le; lia|]. change (B 1) with 2. lra. }
  assert (P2 : cfin (at2 (fdot (fdot rm e) cm) a b) /\ Cmod (cval (at2 (fdot (fdot rm e) cm) a b) - csum (fun j => cval (at2 (fdot rm e) a j) * cval (at2 cm j b)) (nc e))%C <=
     gm * rsum (fun j => Cmod (cval (at2 (fdot rm e) a j)) * Cmod (cval (at2 cm j b))) (nc e) + B (-1000)).
  { specialize (D2 a b). rewrite C1, R1 in D2. apply D2; auto; try lia. intros j Hj. split; [apply P1; auto|apply Kc; auto]. }
  (* together *)
  destruct P2 as [F2 E2]. set (t2 := at2 (fdot (fdot rm e) cm) a b) in *.
  pose proof (core (nr e) (nc e) (fun i j => cval (at2 e i j)) (fun i => cval (at2 rm a i)) (fun i => cis (IZR s * 2 * PI * X i)) (fun j => cval (at2 cm j b)) (fun j => cis (IZR s * 2 * PI * Y j))
     (fun j => cval (at2 (fdot rm e) a j)) (cval t2) kr' kc' gn gm (B (-1000))) as CO. cbv zeta in CO. fold (total e) in CO.
  assert (CO' : Cmod (cval t2 - csum2 (fun i j => cval (at2 e i j) * cis (IZR s * 2 * PI * (X i + Y j))%R) (nr e) (nc e))%C <= 11 / 10 * (kr' + kc' + gn + gm) * total e + 2 * IZR (nc e + 1) * B (-1000)).
  { assert (EQ : csum2 (fun i j => cval (at2 e i j) * cis (IZR s * 2 * PI * (X i + Y j))%R)%C (nr e) (nc e)
      = csum2 (fun i j => cval (at2 e i j) * (cis (IZR s * 2 * PI * X i)%R * cis (IZR s * 2 * PI * Y j)%R))%C (nr e) (nc e)).
    { apply csum2_ext. intros i j _ _. rewrite Rmult_plus_distr_l, cis_add. reflexivity. }
    rewrite EQ. apply CO; clear CO EQ; [lia|lra|lra|lra|lra|lra| | | |exact E2].
    - intros i Hi. split; [apply Cmod_cis|apply Kr; auto].
    - intros j Hj. split; [apply Cmod_cis|apply Kc; auto].
    - intros j Hj. apply P1; auto. }
  clear CO. set (Z := csum2 (fun i j => cval (at2 e i j) * cis (IZR s * 2 * PI * (X i + Y j))%R)%C (nr e) (nc e)) in *.
  set (eps := 11 / 10 * (kr' + kc' + gn + gm) * total e + 2 * IZR (nc e + 1) * B (-1000)) in *.
  assert (MZ : Cmod Z <= total e).
  { unfold Z, csum2, total, rsum2. eapply Rle_trans; [apply Cmod_csum|]. apply rsum_le. intros i Hi. eapply Rle_trans; [apply Cmod_csum|]. apply rsum_le. intros j Hj. rewrite Cmod_mult, Cmod_cis. lra. }
  assert (Ee : eps <= total e + 1).
  { unfold eps. assert (11 / 10 * (kr' + kc' + gn + gm) * total e <= 1 * total e) by (apply Rmult_le_compat_r; lra).
    assert (2 * IZR (nc e + 1) * B (-1000) <= 1); [|lra]. apply Rle_trans with (B 22 * B (-40)); [|rewrite <- bpow_plus; change 1 with (B 0); apply bpow_le; lia].
    assert (1 <= IZR (nc e) <= 1048576) by (split; [apply IZR_le; lia|apply (IZR_le _ 1048576); lia]). rewrite plus_IZR. apply Rmult_le_compat; try lra. change (B 22) with 4194304. lra. }
  destruct (near_step p n Up Sn) as [_ Nr]. destruct (near_step p m Up Sm) as [_ Nc].
  assert (Dp : 0 < / fval p <= B 100).
  { destruct Nr as (_ & _ & _ & Q). destruct Up as (_ & L & _). pose proof (bpow_gt_0 radix2 (-100)). assert (0 < / fval p) by (apply Rinv_0_lt_compat; lra). rewrite Rabs_right in Q by lra. split; auto. }
  destruct (scale2_near t2 (step p n) (step p m) (/ fval p) Z eps F2 Nr Nc (proj1 Dp)) as [FF EE]; [lra|exact CO'|]. split; auto.
  replace (/ fval p ^ 2) with ((/ fval p) ^ 2) by (field; apply Rgt_not_eq; destruct Up as (_ & L & _); pose proof (bpow_gt_0 radix2 (-100)); lra).
  replace (total e / fval p ^ 2) with (total e * (/ fval p) ^ 2) by (field; apply Rgt_not_eq; destruct Up as (_ & L & _); pose proof (bpow_gt_0 radix2 (-100)); lra).
  eapply Rle_trans; [exact EE|]. apply total_bound; auto; [split; [apply Cmod_ge_0|exact MZ]|].
  fold kr' kc' gn gm. lra.
Qed.

Lemma grid_of p n : usable_sampling p -> (0 < n <= 2 ^ 20)%Z -> on_grid (Vec n (fun k => fmul (fofZ (- (n / 2) + k)) (step p n))) (fun k => - (n / 2) + k)%Z p n.
Proof. intros Hp Hn. split; auto. split; auto. cbn [vlen vat]. intros i Hi. split; auto. pose proof (Z.div_mod n 2). pose proof (Z.mod_pos_bound n 2). lia. Qed.
Lemma slice_fit {A} n y0 h (x : vec A) : vlen x = n -> (0 <= y0)%Z -> (0 <= h)%Z -> (y0 + h <= n)%Z ->
  vlen (get_vslice x (Slice y0 (y0 + h))) = h /\ forall i, vat (get_vslice x (Slice y0 (y0 + h))) i = vat x (y0 + i)%Z.
Proof.
  intros <- H1 H2 H3. unfold get_vslice, slice_len, slice_lo, slice_bound. cbn [vlen vat s_start s_stop].
  destruct (Z.ltb_spec y0 0); [lia|]. destruct (Z.ltb_spec (y0 + h) 0); [lia|]. rewrite !Z.min_l by lia. split; [lia|reflexivity].
Qed.
Lemma grid_slice p n y0 h : usable_sampling p -> (0 < n <= 2 ^ 20)%Z -> (0 <= y0)%Z -> (0 <= h)%Z -> (y0 + h <= n)%Z ->
  let x := get_vslice (Vec n (fun k => fmul (fofZ (- (n / 2) + k)) (step p n))) (Slice y0 (y0 + h)) in vlen x = h /\ on_grid x (fun k => - (n / 2) + (y0 + k))%Z p n.
Proof.
  intros Hp Hn H0 H1 H2 x. destruct (slice_fit n y0 h (Vec n (fun k => fmul (fofZ (- (n / 2) + k)) (step p n))) eq_refl H0 H1 H2) as [L V]. fold x in L, V. split; auto.
  split; auto. split; auto. rewrite L. intros i Hi. rewrite V. cbn [vat]. split; auto. pose proof (Z.div_mod n 2). pose proof (Z.mod_pos_bound n 2). lia.
Qed.
Lemma turn_le k r n p q : 0 < p -> 0 < q -> (2 * Z.abs r <= n)%Z -> Rabs (IZR k / q * (IZR r / p)) <= turns k n p q.
Proof.
  intros Hp Hq H. unfold turns, Rdiv. rewrite !Rabs_mult, !Rabs_inv, (Rabs_right p), (Rabs_right q), <- !abs_IZR by lra.
  assert (0 < / p) by (apply Rinv_0_lt_compat; auto). assert (0 < / q) by (apply Rinv_0_lt_compat; auto).
  assert (2 * IZR (Z.abs r) <= IZR n) by (rewrite <- mult_IZR; apply IZR_le; auto). apply Rmult_le_compat_l; [apply Rmult_le_pos; [apply IZR_le; lia|lra]|]. apply Rmult_le_compat_r; lra.
Qed.
Lemma usable_pos p : usable_sampling p -> 0 < fval p.
Proof. intros (_ & L & _). pose proof (bpow_gt_0 radix2 (-100)). lra. Qed.
Lemma usable_fle p : usable_sampling p -> fle p fzero = false.
Proof. intros H. destruct H as (F & L & U). rewrite fle_val by auto. apply Rle_bool_false. pose proof (bpow_gt_0 radix2 (-100)). change (fval fzero) with 0. lra. Qed.

Ltac shape_ok h w := unfold guard; destruct (Z.leb_spec 1 h); [|lia]; destruct (Z.leb_spec 1 w); [|lia]; cbn [bind fst snd].
Lemma same_sum s e din dout h w a b : csum2 (fun i j => cval (at2 e i j) * cis (s * 2 * PI * (IZR (- (h / 2) + a) / dout * (IZR (- (nr e / 2) + i) / din) + IZR (- (w / 2) + b) / dout * (IZR (- (nc e / 2) + j) / din)))%R)%C (nr e) (nc e)
  = csum2 (fun i j => at2 (amap cval e) i j * cis (s * 2 * PI * (IZR (a - h / 2) / dout * (IZR (i - nr e / 2) / din) + IZR (b - w / 2) / dout * (IZR (j - nc e / 2) / din)))%R)%C (nr e) (nc e).
Proof.
  apply csum2_ext. intros i j _ _. cbn [amap at2]. replace (- (h / 2) + a)%Z with (a - h / 2)%Z by ring. replace (- (w / 2) + b)%Z with (b - w / 2)%Z by ring.
  replace (- (nr e / 2) + i)%Z with (i - nr e / 2)%Z by ring. replace (- (nc e / 2) + j)%Z with (j - nc e / 2)%Z by ring. reflexivity.
Qed.
Lemma centred n i : (0 <= i < n)%Z -> (2 * Z.abs (- (n / 2) + i) <= n)%Z.
Proof. intros H. pose proof (Z.div_mod n 2). pose proof (Z.mod_pos_bound n 2). lia. Qed.

Lemma do_mft_f_near e h w ppl ppp : usable_field e -> (0 < h <= 2 ^ 20)%Z -> (0 < w <= 2 ^ 20)%Z -> usable_sampling ppl -> usable_sampling ppp ->
  exists o, do_mft_f fcexp fdot e [h; w] ppl ppp = Ok o /\ nr o = h /\ nc o = w /\
  forall a b, (0 <= a < h)%Z -> (0 <= b < w)%Z -> let tr := turns (a - h / 2) (nr e) (fval ppp) (fval ppl) in let tc := turns (b - w / 2) (nc e) (fval ppp) (fval ppl) in
  tr <= B 30 -> tc <= B 30 -> accurate (at2 o a b) (fourier_sum (-1) (amap cval e) (fval ppp) (fval ppl) h w a b) tr tc e (fval ppp).
Proof.
  intros Ue Hh Hw Ul Up. destruct Ue as (Hn & Hm & Ue'). unfold do_mft_f. unfold guard at 1 2. rewrite !usable_fle by auto. cbn [negb bind shape2]. shape_ok h w.
  rewrite !interval_f_ok by auto. cbn [bind fst snd].
  destruct (transform_near (-1) e ppp ppl (nr e) (nc e) h w _ _ _ _ _ _ _ _ (or_intror eq_refl) (conj Hn (conj Hm Ue')) (eq_refl : vlen (Vec (nr e) _) = _) (eq_refl : vlen (Vec (nc e) _) = _) (grid_of ppp (nr e) Up Hn) (grid_of ppp (nc e) Up Hm) (grid_of ppl h Ul Hh) (grid_of ppl w Ul Hw)) as (o & E & R & C & A).
  exists o. split; [exact E|]. split; [exact R|]. split; [exact C|]. intros a b Ha Hb. set (tr := turns (a - h / 2) (nr e) (fval ppp) (fval ppl)). set (tc := turns (b - w / 2) (nc e) (fval ppp) (fval ppl)). intros Htr Htc. pose proof (usable_pos _ Up). pose proof (usable_pos _ Ul).
  specialize (A a b tr tc Ha Hb). unfold accurate. unfold fourier_sum. cbn [amap nr nc]. cbv beta in A. rewrite same_sum in A. apply A; auto.
  - intros i Hi. unfold tr. replace (a - h / 2)%Z with (- (h / 2) + a)%Z by ring. apply turn_le; auto. apply centred, Hi.
  - intros j Hj. unfold tc. replace (b - w / 2)%Z with (- (w / 2) + b)%Z by ring. apply turn_le; auto. apply centred, Hj.
Qed.
Lemma do_imft_f_near e h w ppl ppp : usable_field e -> (0 < h <= 2 ^ 20)%Z -> (0 < w <= 2 ^ 20)%Z -> usable_sampling ppl -> usable_sampling ppp ->
  exists o, do_imft_f fcexp fdot e [h; w] ppl ppp = Ok o /\ nr o = h /\ nc o = w /\
  forall a b, (0 <= a < h)%Z -> (0 <= b < w)%Z -> let tr := turns (a - h / 2) (nr e) (fval ppl) (fval ppp) in let tc := turns (b - w / 2) (nc e) (fval ppl) (fval ppp) in
  tr <= B 30 -> tc <= B 30 -> accurate (at2 o a b) (fourier_sum 1 (amap cval e) (fval ppl) (fval ppp) h w a b) tr tc e (fval ppl).
Proof.
  intros Ue Hh Hw Ul Up. destruct Ue as (Hn & Hm & Ue'). unfold do_imft_f. unfold guard at 1 2. rewrite !usable_fle by auto. cbn [negb bind shape2]. shape_ok h w.
  rewrite !interval_f_ok by auto. cbn [bind fst snd].
  destruct (transform_near 1 e ppl ppp (nr e) (nc e) h w _ _ _ _ _ _ _ _ (or_introl eq_refl) (conj Hn (conj Hm Ue')) (eq_refl : vlen (Vec (nr e) _) = _) (eq_refl : vlen (Vec (nc e) _) = _) (grid_of ppl (nr e) Ul Hn) (grid_of ppl (nc e) Ul Hm) (grid_of ppp h Up Hh) (grid_of ppp w Up Hw)) as (o & E & R & C & A).
  exists o. split; [exact E|]. split; [exact R|]. split; [exact C|]. intros a b Ha Hb. set (tr := turns (a - h / 2) (nr e) (fval ppl) (fval ppp)). set (tc := turns (b - w / 2) (nc e) (fval ppl) (fval ppp)). intros Htr Htc. pose proof (usable_pos _ Up). pose proof (usable_pos _ Ul).
  specialize (A a b tr tc Ha Hb). unfold accurate. unfold fourier_sum. cbn [amap nr nc]. cbv beta in A. rewrite same_sum in A. apply A; auto.
  - intros i Hi. unfold tr. replace (a - h / 2)%Z with (- (h / 2) + a)%Z by ring. apply turn_le; auto. apply centred, Hi.
  - intros j Hj. unfold tc. replace (b - w / 2)%Z with (- (w / 2) + b)%Z by ring. apply turn_le; auto. apply centred, Hj.
Qed.
Lemma do_offcenter_f_near e h w ppl ppp hp wp y0 x0 : usable_field e -> (0 < h <= 2 ^ 20)%Z -> (0 < w <= 2 ^ 20)%Z -> usable_sampling ppl -> usable_sampling ppp ->
  (0 < hp <= 2 ^ 20)%Z -> (0 < wp <= 2 ^ 20)%Z -> (0 <= y0)%Z -> (0 <= x0)%Z -> (y0 + nr e <= hp)%Z -> (x0 + nc e <= wp)%Z ->
  exists o, do_offcenter_mft_f fcexp fdot e [h; w] ppl ppp [hp; wp] [y0; x0] = Ok o /\ nr o = h /\ nc o = w /\
  forall a b, (0 <= a < h)%Z -> (0 <= b < w)%Z -> let tr := turns (a - h / 2) hp (fval ppp) (fval ppl) in let tc := turns (b - w / 2) wp (fval ppp) (fval ppl) in
  tr <= B 30 -> tc <= B 30 -> accurate (at2 o a b) (fourier_sum (-1) (embed (amap cval e) hp wp y0 x0) (fval ppp) (fval ppl) h w a b) tr tc e (fval ppp).
Proof.
  intros Ue Hh Hw Ul Up Hhp Hwp Hy Hx Fy Fx. destruct Ue as (Hn & Hm & Ue'). unfold do_offcenter_mft_f. unfold guard at 1 2. rewrite !usable_fle by auto. cbn [negb bind shape2]. shape_ok h w. shape_ok hp wp.
  destruct (Z.leb_spec 0 y0); [|lia]. destruct (Z.leb_spec 0 x0); [|lia]. cbn [bind fst snd].
  rewrite !interval_f_ok by auto. cbn [bind fst snd].
  destruct (grid_slice ppp hp y0 (nr e) Up Hhp Hy ltac:(lia) Fy) as [L1 G1]. destruct (grid_slice ppp wp x0 (nc e) Up Hwp Hx ltac:(lia) Fx) as [L2 G2].
  destruct (transform_near (-1) e ppp ppl hp wp h w _ _ _ _ _ _ _ _ (or_intror eq_refl) (conj Hn (conj Hm Ue')) L1 L2 G1 G2 (grid_of ppl h Ul Hh) (grid_of ppl w Ul Hw)) as (o & E & R & C & A).
  exists o. split; [exact E|]. split; [exact R|]. split; [exact C|]. intros a b Ha Hb. set (tr := turns (a - h / 2) hp (fval ppp) (fval ppl)). set (tc := turns (b - w / 2) wp (fval ppp) (fval ppl)). intros Htr Htc. pose proof (usable_pos _ Up). pose proof (usable_pos _ Ul).
  specialize (A a b tr tc Ha Hb). unfold accurate. unfold fourier_sum. cbn [embed nr nc at2].
  rewrite (csum2_window (fun i j => cis (-1 * 2 * PI * (IZR (a - h / 2) / fval ppl * (IZR (i - hp / 2) / fval ppp) + IZR (b - w / 2) / fval ppl * (IZR (j - wp / 2) / fval ppp)))) (amap cval e)) by (cbn [amap nr nc]; auto; split; cbn; lia).
  cbn [amap nr nc at2].
  replace (csum2 (fun i j => cval (at2 e i j) * cis (-1 * 2 * PI * (IZR (a - h / 2) / fval ppl * (IZR (y0 + i - hp / 2) / fval ppp) + IZR (b - w / 2) / fval ppl * (IZR (x0 + j - wp / 2) / fval ppp)))%R)%C (nr e) (nc e))
    with (csum2 (fun i j => cval (at2 e i j) * cis (-1 * 2 * PI * (IZR (- (h / 2) + a) / fval ppl * (IZR (- (hp / 2) + (y0 + i)) / fval ppp) + IZR (- (w / 2) + b) / fval ppl * (IZR (- (wp / 2) + (x0 + j)) / fval ppp)))%R)%C (nr e) (nc e)).
  - apply A; auto.
    + intros i Hi. unfold tr. replace (a - h / 2)%Z with (- (h / 2) + a)%Z by ring. apply turn_le; auto. apply centred. lia.
    + intros j Hj. unfold tc. replace (b - w / 2)%Z with (- (w / 2) + b)%Z by ring. apply turn_le; auto. apply centred. lia.
  - apply csum2_ext. intros i j _ _. replace (- (h / 2) + a)%Z with (a - h / 2)%Z by ring. replace (- (w / 2) + b)%Z with (b - w / 2)%Z by ring.
    replace (- (hp / 2) + (y0 + i))%Z with (y0 + i - hp / 2)%Z by ring. replace (- (wp / 2) + (x0 + j))%Z with (x0 + j - wp / 2)%Z by ring. reflexivity.
Qed.
End Lib.
