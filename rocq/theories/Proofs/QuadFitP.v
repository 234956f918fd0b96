(** Fits of quadratic surfaces to costs on a square grid of trial offsets. *)
From Coq Require Import ZArith Bool List Reals Lra Lia String.
From Verif.Base Require Import Py Arr Vec Sums Lstsq.
From Verif.Model Require Import Math Noll Fits.
From Verif.Spec Require Import FitsSpec PupilUtilSpec.
From Verif.Proofs Require Import FitsP.
Import ListNotations.
Open Scope Z_scope.

Definition ones (n : Z) : arr R := afull n n 1%R.
Lemma ones_bool n : bool_mask (ones n). Proof. intros i j _. right. reflexivity. Qed.
Lemma ones_masked n f : masked_sum (ones n) f = rsum2 f n n.
Proof.
  unfold masked_sum, ones. cbn [afull nr nc at2]. apply rsum2_ext. intros i j _ _. destruct (Req_EM_T 1 0); [lra|auto].
Qed.

Lemma quad2_reflect a b c p r s x0 y0 X Y :
  quad2 a b c (p - 2 * (2 * a * x0 + b * y0 + p)) (r - 2 * (b * x0 + 2 * c * y0 + r))
    (s + 2 * ((2 * a * x0 + b * y0 + p) * x0 + (b * x0 + 2 * c * y0 + r) * y0)) X Y
  = quad2 a b c p r s (2 * x0 - X) (2 * y0 - Y).
Proof. unfold quad2. ring. Qed.
Section QuadFit.
Variable lstsq : lstsq_fun.
Hypothesis oracle : is_lstsq_oracle lstsq.
Section Fit.
Variables (m : R -> R -> R) (n : Z) (d x0 y0 : R).
Hypothesis Hn : 0 < n.
Variables (vx vy : vec R) (costMat : arr R).
Hypothesis Hvx : vlen vx = n /\ forall i, 0 <= i < n -> vat vx i = trial n d x0 i.
Hypothesis Hvy : vlen vy = n /\ forall i, 0 <= i < n -> vat vy i = trial n d y0 i.
Hypothesis Hcost : nr costMat = n /\ nc costMat = n /\
  forall iy ix, 0 <= iy < n -> 0 <= ix < n -> at2 costMat iy ix = m (trial n d x0 ix) (trial n d y0 iy).
Let q := lstsq (nonzero_points (ones n)) 6 (quad_basis vx vy) (fun p => at2 costMat (fst p) (snd p)).
Lemma fit_sse c : sse (nonzero_points (ones n)) 6 (quad_basis vx vy) (fun p => at2 costMat (fst p) (snd p)) c =
  surface_err m n d x0 y0 (c 0%Z) (c 1%Z) (c 2%Z) (c 3%Z) (c 4%Z) (c 5%Z).
Proof.
  unfold sse. rewrite (lsum_ext _ (fun p => (quad2 (c 0%Z) (c 1%Z) (c 2%Z) (c 3%Z) (c 4%Z) (c 5%Z) (vat vx (snd p)) (vat vy (fst p)) -
      at2 costMat (fst p) (snd p)) ^ 2)%R) by (intros p _; rewrite quad_fitted; auto).
  rewrite (masked_lsum (ones n) (fun i j => (quad2 (c 0%Z) (c 1%Z) (c 2%Z) (c 3%Z) (c 4%Z) (c 5%Z) (vat vx j) (vat vy i) -
      at2 costMat i j) ^ 2)%R).
  rewrite ones_masked. unfold surface_err. apply rsum2_ext. intros i j Hi Hj. destruct Hvx as [_ Vx], Hvy as [_ Vy], Hcost as (_ & _ & V).
  rewrite Vx, Vy, V by auto. auto.
Qed.
Lemma six_values a b c p r s : exists f : Z -> R, f 0 = a /\ f 1 = b /\ f 2 = c /\ f 3 = p /\ f 4 = r /\ f 5 = s.
Proof. exists (c6 a b c p r s). cbn. auto 10. Qed.
Lemma fit_best a' b' c' p' q' r' :
  (surface_err m n d x0 y0 (q 0%Z) (q 1%Z) (q 2%Z) (q 3%Z) (q 4%Z) (q 5%Z) <= surface_err m n d x0 y0 a' b' c' p' q' r')%R.
Proof.
  destruct (six_values a' b' c' p' q' r') as (f & <- & <- & <- & <- & <- & <-).
  rewrite <- !fit_sse. apply oracle.
Qed.
Lemma opt2_unfold : find_optimum_2d lstsq vx vy costMat (afull n n 1%R) =
  (check negb (Rltb (Rabs (q 1%Z * q 1%Z - 4 * q 0%Z * q 2%Z)) (4 * resolution)
              || Rltb (Rabs (2 * q 2%Z)) (2 * resolution)) else Custom "QuadraticException";
   let xBest := ((2 * q 2%Z * q 3%Z - q 4%Z * q 1%Z) / (q 1%Z * q 1%Z - 4 * q 0%Z * q 2%Z))%R in
   Ok (xBest, - (q 1%Z * xBest + q 4%Z) / (2 * q 2%Z))%R).
Proof.
  unfold find_optimum_2d, same_shape. destruct Hvx as [-> _], Hvy as [-> _], Hcost as (-> & -> & _). cbn [afull nr nc]. rewrite !Z.eqb_refl. cbn [andb guard bind].
  change (afull n n 1%R) with (ones n). rewrite (proj1 (bool_mask_count _ (ones_bool n))).
  unfold reshape_ok. rewrite Z.eqb_refl. cbn [orb guard bind]. reflexivity.
Qed.
Lemma opt2_cases : find_optimum_2d lstsq vx vy costMat (afull n n 1%R) = Err (Custom "QuadraticException") \/
  exists x y, find_optimum_2d lstsq vx vy costMat (afull n n 1%R) = Ok (x, y) /\
    (q 1%Z ^ 2 - 4 * q 0%Z * q 2%Z <> 0)%R /\ stationary (q 0%Z) (q 1%Z) (q 2%Z) (q 3%Z) (q 4%Z) x y.
Proof.
  rewrite opt2_unfold. unfold Rltb, resolution.
  destruct (Rlt_dec (Rabs (q 1%Z * q 1%Z - 4 * q 0%Z * q 2%Z)) _) as [|N1]; [auto|].
  destruct (Rlt_dec (Rabs (2 * q 2%Z)) _) as [|N2]; [auto|]. right. cbn [orb negb guard bind].
  assert (K : (0 < / 10 ^ 15)%R) by (apply Rinv_0_lt_compat, pow_lt; lra).
  assert (D : (q 1%Z * q 1%Z - 4 * q 0%Z * q 2%Z <> 0)%R) by (intros Q; rewrite Q, Rabs_R0 in N1; lra).
  assert (c0 : (q 2%Z <> 0)%R) by (intros Q; rewrite Q, Rmult_0_r, Rabs_R0 in N2; lra).
  do 2 eexists. split; [reflexivity|]. split; [intros Q; apply D; rewrite <- Q; ring|].
  unfold stationary. split; field; auto.
Qed.
Lemma fit_shift x y : find_optimum_2d lstsq vx vy costMat (afull n n 1%R) = Ok (x, y) -> fitted_shift m n d x0 y0 x y.
Proof.
  destruct opt2_cases as [->|(x' & y' & -> & D & S)]; [discriminate|]. intros [= <- <-].
  exists (q 0%Z), (q 1%Z), (q 2%Z), (q 3%Z), (q 4%Z), (q 5%Z). split; [intros; apply fit_best|]. auto.
Qed.
(** Data symmetric about the grid's centre have their stationary point there. *)
Hypothesis Hn2 : 2 <= n.
Hypothesis Hd : d <> 0%R.
Hypothesis Hsym : forall i j, 0 <= i < n -> 0 <= j < n ->
  m (trial n d x0 j) (trial n d y0 i) = m (trial n d x0 (n - 1 - j)) (trial n d y0 (n - 1 - i)).
Lemma trial_flip c i : trial n d c (n - 1 - i) = (2 * c - trial n d c i)%R.
Proof. unfold trial. rewrite !minus_IZR. field. Qed.
Lemma fit_symmetric : find_optimum_2d lstsq vx vy costMat (afull n n 1%R) = Err (Custom "QuadraticException") \/
  find_optimum_2d lstsq vx vy costMat (afull n n 1%R) = Ok (x0, y0).
Proof.
  destruct opt2_cases as [E|(x & y & E & D & S)]; [auto|right]. rewrite E.
  (* coefficients of the reflected surface *)
  set (a := q 0%Z) in *. set (b := q 1%Z) in *. set (c := q 2%Z) in *. set (p := q 3%Z) in *. set (r := q 4%Z) in *. set (s := q 5%Z) in *.
  set (P := (2 * a * x0 + b * y0 + p)%R). set (Q := (b * x0 + 2 * c * y0 + r)%R).
  pose (f := c6 a b c (p - 2 * P) (r - 2 * Q) (s + 2 * (P * x0 + Q * y0))%R).
  assert (R1 : forall X Y, quad2 a b c (p - 2 * P) (r - 2 * Q) (s + 2 * (P * x0 + Q * y0)) X Y
     = quad2 a b c p r s (2 * x0 - X) (2 * y0 - Y)).
  { intros X Y. apply quad2_reflect. }
  assert (L : is_lstsq (nonzero_points (ones n)) 6 (quad_basis vx vy) (fun p => at2 costMat (fst p) (snd p)) f).
  { intros c'. rewrite !fit_sse. cbn [f c6].
    replace (surface_err m n d x0 y0 a b c (p - 2 * P) (r - 2 * Q) (s + 2 * (P * x0 + Q * y0)))
      with (surface_err m n d x0 y0 a b c p r s).
    - apply fit_best.
    - unfold surface_err.
      rewrite <- (rsum2_flip_h (fun i j => (quad2 a b c p r s (trial n d x0 j) (trial n d y0 i) - m (trial n d x0 j) (trial n d y0 i)) ^ 2)%R).
      rewrite <- (rsum2_flip_v (fun i j => (quad2 a b c p r s (trial n d x0 (n - 1 - j)) (trial n d y0 i) - m (trial n d x0 (n - 1 - j)) (trial n d y0 i)) ^ 2)%R).
      apply rsum2_ext. intros i j Hi Hj. rewrite R1, <- Hsym by auto. rewrite !trial_flip. auto. }
  assert (U : forall i j, 0 <= i < n -> 0 <= j < n -> (P * (trial n d x0 j - x0) + Q * (trial n d y0 i - y0) = 0)%R).
  { intros i j Hi Hj.
    assert (I : In (i, j) (nonzero_points (ones n))) by (apply in_nzp; split; [split; auto|cbn; lra]).
    pose proof (lstsq_fitted_unique _ _ _ _ q f (oracle _ _ _ _) L (i, j) I) as F.
    rewrite !quad_fitted in F. cbn [f c6 fst snd] in F. rewrite (proj2 Hvx), (proj2 Hvy) in F by auto.
    fold a b c p r s in F. unfold quad2 in F. lra. }
  assert (U1 : (P * (IZR (n - 1) * d) = 0 /\ Q * (IZR (n - 1) * d) = 0)%R).
  { pose proof (U 0 0 ltac:(lia) ltac:(lia)). pose proof (U 0 (n - 1) ltac:(lia) ltac:(lia)).
    pose proof (U (n - 1) 0 ltac:(lia) ltac:(lia)). unfold trial in *. rewrite minus_IZR in *. nra. }
  assert (Nz : (IZR (n - 1) * d <> 0)%R) by (apply Rmult_integral_contrapositive_currified; [apply not_0_IZR; lia|auto]).
  assert (P = 0)%R by (destruct (Rmult_integral _ _ (proj1 U1)); [auto|contradiction]).
  assert (Q = 0)%R by (destruct (Rmult_integral _ _ (proj2 U1)); [auto|contradiction]).
  assert (S0 : stationary a b c p r x0 y0) by (split; assumption).
  apply (stationary_unique a b c p r) in S; auto. apply (stationary_unique a b c p r) in S0; auto.
  destruct S as [-> ->], S0 as [<- <-]. auto.
Qed.
End Fit.
End QuadFit.
