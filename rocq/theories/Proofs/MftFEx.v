(** Reference routines that round correctly; zero padding in double precision. *)
From Coq Require Import ZArith Reals Bool List Lia Lra.
From Coquelicot Require Import Complex.
From Flocq Require Import Core BinarySingleNaN.
From Verif.Base Require Import Py F64 Arr Vec Sums CSum.
From Verif.Model Require Import ShapesG Mft MftF.
From Verif.Spec Require Import MftFSpec.
From Verif.Proofs Require Import F64P F64N LibmRef NollFP MftFP MftFQ MftFR MftFS.
Import ListNotations.
Local Open Scope R_scope.
Local Notation B := (bpow radix2).

Definition cexp_ref (z : c128) : c128 :=
  (of_R (exp (fval (fst z)) * cos (fval (snd z))), of_R (exp (fval (fst z)) * sin (fval (snd z)))).
Definition dot_ref (a b : arr c128) : arr c128 :=
  Arr (nr a) (nc b) (fun i j => let s := csum (fun k => cval (at2 a i k) * cval (at2 b k j))%C (nc a) in (of_R (fst s), of_R (snd s))).

Lemma of_C_near (z : C) s : Cmod z <= s -> s <= B 1000 -> cfin (of_R (fst z), of_R (snd z)) /\ Cmod (cval (of_R (fst z), of_R (snd z)) - z)%C <= 2 * (B (-53) * s + B (-1075)).
Proof.
  intros H1 H2. pose proof (Rmax_Cmod z) as M. pose proof (Rmax_l (Rabs (fst z)) (Rabs (snd z))) as M1. pose proof (Rmax_r (Rabs (fst z)) (Rabs (snd z))) as M2.
  destruct (of_R_spec (fst z) ltac:(lra)) as [V1 F1]. destruct (of_R_spec (snd z) ltac:(lra)) as [V2 F2]. split; [split; auto|].
  pose proof (bpow_gt_0 radix2 (-53)) as P. apply Cmod_parts; unfold cval, Cminus, Cplus, Copp; cbn [fst snd]; rewrite ?V1, ?V2.
  - pose proof (NollFP.rnd_err (fst z)) as E. unfold Rminus in E. nra.
  - pose proof (NollFP.rnd_err (snd z)) as E. unfold Rminus in E. nra.
Qed.
Lemma cexp_ref_ok : cexp_ok cexp_ref.
Proof.
  intros z Fz H0 _. unfold cexp_ref. rewrite H0, exp_0, !Rmult_1_l. destruct (of_C_near (cis (fval (snd z))) 1) as [A D].
  - rewrite Cmod_cis. lra.
  - change 1 with (B 0). apply bpow_le. lia.
  - split; [exact A|]. apply Rle_trans with (1 := D). assert (I : B (-51) = 4 * B (-53)) by (cbn; lra). rewrite I.
    assert (B (-1075) <= B (-53)) by (apply bpow_le; lia). lra.
Qed.
Lemma dot_ref_ok : dot_ok dot_ref.
Proof.
  intros a b H. split; [reflexivity|]. split; [reflexivity|]. intros i j Hn Hf Hi Hj size Hs. cbn [dot_ref at2].
  set (z := csum (fun k => cval (at2 a i k) * cval (at2 b k j))%C (nc a)).
  assert (Z0 : Cmod z <= size). { unfold z. apply Rle_trans with (1 := Cmod_csum _ _). unfold size. apply Req_le. apply rsum_ext. intros k _. apply Cmod_mult. }
  assert (S0 : 0 <= size) by (pose proof (Cmod_ge_0 z); lra).
  destruct (of_C_near z size Z0) as [A D]; [apply Rle_trans with (1 := Hs); apply bpow_le; lia|]. split; [exact A|]. apply Rle_trans with (1 := D).
  assert (N4 : 4 <= IZR (nc a + 4)) by (apply IZR_le; lia). assert (I : B (-51) = 4 * B (-53)) by (cbn; lra). rewrite I.
  assert (J : 2 * B (-1075) = B (-1074)) by (change 2 with (B 1); rewrite <- bpow_plus; reflexivity). assert (B (-1074) <= B (-1000)) by (apply bpow_le; lia).
  pose proof (bpow_gt_0 radix2 (-53)). assert (0 <= B (-53) * size) by (apply Rmult_le_pos; lra).
  replace (IZR (nc a + 4) * (4 * B (-53)) * size) with (IZR (nc a + 4) * (4 * (B (-53) * size))) by ring. nra.
Qed.

(** One lit pixel, alone or in the middle of three by three, at five pixels per pupil. *)
Definition lit : arr c128 := Arr 1 1 (fun _ _ => (fofZ 1, fzero)).
Definition lit3 : arr c128 := Arr 3 3 (fun i j => if (i =? 1)%Z && (j =? 1)%Z then (fofZ 1, fzero) else (fzero, fzero)).

Lemma cexp_ref_0 s s' : cval (cexp_ref (B754_zero s, B754_zero s')) = RtoC 1.
Proof.
  unfold cexp_ref, cval. cbn [fst snd]. change (fval (B754_zero s)) with 0. change (fval (B754_zero s')) with 0. rewrite exp_0, cos_0, sin_0, !Rmult_1_l.
  destruct (of_R_spec 1) as [V1 _]. { rewrite Rabs_R1. change 1 with (B 0). apply bpow_le. lia. }
  destruct (of_R_spec 0) as [V0 _]. { rewrite Rabs_R0. apply bpow_ge_0. }
  rewrite V1, V0, rnd_0. rewrite rnd_id; [reflexivity|]. change 1 with (B 0). apply generic_format_bpow. unfold flt_exp. lia.
Qed.
Lemma of_R_1 : of_R 1 = fofZ 1.
Proof.
  destruct (of_R_spec 1) as [V F]. { rewrite Rabs_R1. change 1 with (B 0). apply bpow_le. lia. }
  destruct (fofZ_spec 1) as [V' F']; [cbn; lia|]. rewrite rnd_id in V. 2: { change 1 with (B 0). apply generic_format_bpow. unfold flt_exp. lia. }
  apply B2R_inj.
  - destruct (of_R 1); try discriminate; [cbn in V; exfalso; lra|reflexivity].
  - reflexivity.
  - unfold fval in *. congruence.
Qed.
Lemma of_R_0 : exists s, of_R 0 = B754_zero s.
Proof.
  destruct (of_R_spec 0) as [V F]. { rewrite Rabs_R0. apply bpow_ge_0. } rewrite rnd_0 in V.
  destruct (of_R 0) as [s|s| |s m e H]; try discriminate; [eauto|]. exfalso. unfold fval in V. cbn in V.
  destruct s; [pose proof (F2R_lt_0 radix2 (Float radix2 (Z.neg m) e) ltac:(reflexivity))|pose proof (F2R_gt_0 radix2 (Float radix2 (Z.pos m) e) ltac:(reflexivity))]; cbn in *; lra.
Qed.
Lemma cval_1 : cval (fofZ 1, fzero) = RtoC 1.
Proof. unfold cval. cbn [fst snd]. destruct (fofZ_spec 1) as [-> _]; [cbn; lia|]. reflexivity. Qed.
Lemma cval_0 : cval (fzero, fzero) = RtoC 0.
Proof. reflexivity. Qed.
Lemma csum_3 f : csum f 3 = (f 0%Z + f 1%Z + f 2%Z)%C.
Proof. unfold csum, gsum. change (Z.to_nat 3) with 3%nat. cbn [gnsum]. cbn. ring. Qed.
Lemma csum_1 f : csum f 1 = f 0%Z.
Proof. unfold csum, gsum. change (Z.to_nat 1) with 1%nat. cbn [gnsum]. cbn. ring. Qed.
Definition fis0 (x : f64) : bool := match x with B754_zero _ => true | _ => false end.
Lemma cexp_ref_fis0 z : fis0 (fst z) && fis0 (snd z) = true -> cval (cexp_ref z) = RtoC 1.
Proof. destruct z as [[s|?| |? ? ? ?] [s'|?| |? ? ? ?]]; cbn; try discriminate. intros _. apply cexp_ref_0. Qed.
Lemma usable_Z z : (1 <= z <= 2 ^ 53)%Z -> usable_sampling (fofZ z).
Proof.
  intros H. destruct (fofZ_spec z) as [V F]; [lia|]. split; auto. rewrite V. split.
  - apply Rle_trans with 1; [change 1 with (B 0); apply bpow_le; lia|apply IZR_le; lia].
  - apply Rle_trans with (IZR (2 ^ 53)); [apply IZR_le; lia|]. change (IZR (2 ^ 53)) with (B 53). apply bpow_le. lia.
Qed.
Lemma of_pair x y s : x = 1 -> y = 0 -> of_R 0 = B754_zero s -> (of_R x, of_R y) = (fofZ 1, B754_zero s).
Proof. intros -> -> E. rewrite of_R_1, E. reflexivity. Qed.
Definition scaled1 (n : Z) (s : bool) : c128 := cmul (cmul (fofZ 1, B754_zero s) (cofF (step (fofZ 5) n))) (cofF (step (fofZ 5) n)).

Lemma cval_of z s : of_R 0 = B754_zero s -> z = RtoC 1 \/ z = RtoC 0 -> cval (of_R (fst z), of_R (snd z)) = z.
Proof.
  intros E [-> | ->]; unfold RtoC, cval; cbn [fst snd]; rewrite ?of_R_1, E; [|reflexivity]. destruct (fofZ_spec 1) as [-> _]; [cbn; lia|]. reflexivity.
Qed.
Lemma times_1 (z w : C) : z = RtoC 1 -> (z * w)%C = w. Proof. intros ->. ring. Qed.
Lemma times_1' (z w : C) : w = RtoC 1 -> (z * w)%C = z. Proof. intros ->. ring. Qed.
Ltac unit_exp := cbn [exp_outer_f at2 vat]; apply cexp_ref_fis0; vm_compute; reflexivity.
Lemma lit_out s : of_R 0 = B754_zero s -> exists o, do_mft_f cexp_ref dot_ref lit [1; 1]%Z (fofZ 1) (fofZ 5) = Ok o /\ at2 o 0 0 = scaled1 1 s.
Proof.
  intros E. unfold do_mft_f. rewrite !usable_fle by (apply usable_Z; lia). cbn [negb guard bind shape2 Z.leb Z.compare fst snd lit nr nc].
  change (guard ((1 <=? 1)%Z) TypeError) with (Ok tt). cbn [bind fst snd].
  rewrite !interval_f_ok by (try apply usable_Z; lia). cbn [bind fst snd]. unfold mdot_f. cbn [exp_outer_f nr nc vlen lit dot_ref Z.eqb guard bind Pos.eqb].
  eexists. split; [reflexivity|]. cbn [ascale_f amap at2 dot_ref]. unfold scaled1. f_equal. f_equal. cbn [exp_outer_f lit nr nc vlen].
  rewrite !csum_1. rewrite times_1' by unit_exp. cbn [at2]. rewrite times_1 by unit_exp. cbn [lit at2]. rewrite cval_1.
  rewrite (cval_of _ s E) by auto. apply of_pair; auto.
Qed.
Lemma lit3_out s : of_R 0 = B754_zero s -> exists o, do_mft_f cexp_ref dot_ref lit3 [1; 1]%Z (fofZ 1) (fofZ 5) = Ok o /\ at2 o 0 0 = scaled1 3 s.
Proof.
  intros E. unfold do_mft_f. rewrite !usable_fle by (apply usable_Z; lia). cbn [negb guard bind shape2 Z.leb Z.compare fst snd lit3 nr nc].
  change (guard ((1 <=? 1)%Z) TypeError) with (Ok tt). cbn [bind fst snd].
  rewrite !interval_f_ok by (try apply usable_Z; lia). cbn [bind fst snd]. unfold mdot_f. cbn [exp_outer_f nr nc vlen lit3 dot_ref Z.eqb guard bind Pos.eqb].
  eexists. split; [reflexivity|]. cbn [ascale_f amap at2 dot_ref]. unfold scaled1. f_equal. f_equal. cbn [exp_outer_f lit3 nr nc vlen].
  repeat match goal with |- context [exp_outer_f cexp_ref ?q ?x ?y] => let m := fresh "m" in set (m := exp_outer_f cexp_ref q x y) end.
  assert (U0 : forall k, In k [0; 1; 2]%Z -> cval (at2 m 0 k) = RtoC 1) by (intros k [<-|[<-|[<-|[]]]]; unfold m; unit_exp).
  assert (U1 : forall k, In k [0; 1; 2]%Z -> cval (at2 m0 k 0) = RtoC 1) by (intros k [<-|[<-|[<-|[]]]]; unfold m0; unit_exp).
  rewrite !csum_3, !U0, !U1 by (cbn; auto). cbn [lit3 at2 Z.eqb Pos.eqb andb]. rewrite cval_1, cval_0.
  rewrite !(cval_of _ s E) by first [left; ring|right; ring]. match goal with |- (of_R (fst ?z), _) = _ => replace z with (RtoC 1) by ring end. apply of_pair; auto.
Qed.
Lemma scaled1_differ s : fst (scaled1 1 s) <> fst (scaled1 3 s).
Proof.
  intros H. apply (f_equal (fun x => B2SF x)) in H. destruct s; vm_compute in H; discriminate.
Qed.
