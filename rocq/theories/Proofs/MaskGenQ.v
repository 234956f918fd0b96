From Coq Require Import ZArith Bool List String Reals Lia Lra.
From Flocq Require Import Core.
From Coquelicot Require Import Complex.
From Verif.Base Require Import Py Arr Vec Sums CSum Fft.
From Verif.Model Require Import Math PadCrop Fits ThinFilm MaskGen.
From Verif.Spec Require Import MaskGenSpec.
From Verif.Proofs Require Import PadCropP MathP PsfFitP DarkHoleP MaskGenP.
Import ListNotations.
Open Scope Z_scope.
Ltac Zify.zify_post_hook ::= Z.div_mod_to_equations.

(** ** Fourier resampling (maskgen.py:268-269) *)
Definition resample (mid : arr C) (m : Z) : res (arr C) :=
  do f <- ifft2 (ifftshift mid);
  do occFT <- pad_crop (fftshift f) [m; m] (RtoC 0);
  do e <- fft2 (ifftshift occFT);
  Ok (fftshift e).
Lemma resample_ok (mid : arr C) n m : nr mid = n -> nc mid = n -> 0 < n -> 0 < m ->
  exists out, resample mid m = Ok out /\ nr out = m /\ nc out = m /\
  forall p q, at2 out p q = cdft2 (-1) m m (fun i j =>
    if in_arrb mid (i - m / 2 + n / 2) (j - m / 2 + n / 2)
    then (cdft2 1 n n (at2 mid) (i - m / 2 + n / 2)%Z (j - m / 2 + n / 2)%Z / RtoC (IZR n * IZR n))%C else RtoC 0) p q.
Proof.
  intros N1 N2 Hn Hm. unfold resample.
  destruct (fftshift_ifft2 mid) as (f & E1 & F1 & F2 & FV); try lia. rewrite E1. cbn [bind].
  rewrite N1, N2 in *.
  destruct (pad_crop_ok (fftshift f) m m (RtoC 0)) as (g & E2 & G1 & G2 & GV); try lia; [split; lia|].
  rewrite E2. cbn [bind].
  destruct (fftshift_fft2 g) as (e & E3 & D1 & D2 & DV); try lia. rewrite E3. cbn [bind].
  eexists. split; [reflexivity|]. rewrite G1, G2 in *. split; [auto|]. split; [auto|]. intros p q. rewrite DV.
  apply cdft2_ext. intros i j Hi Hj. rewrite GV by auto. rewrite F1, F2.
  assert (B : in_arrb (fftshift f) (i - m / 2 + n / 2) (j - m / 2 + n / 2) = in_arrb mid (i - m / 2 + n / 2) (j - m / 2 + n / 2)).
  { unfold in_arrb. rewrite F1, F2, N1, N2. auto. }
  rewrite B. destruct (in_arrb mid _ _); auto.
Qed.
Lemma csum_w_centre n s i : 0 < n -> (s = 1 \/ s = -1) -> 0 <= i < n ->
  csum (fun p => w n (s * ((i - n / 2) * (p - n / 2)))) n = if i =? n / 2 then RtoC (IZR n) else RtoC 0.
Proof.
  intros Hn Hs Hi.
  rewrite (csum_ext _ (fun p => w n (- (s * ((i - n / 2) * (n / 2)))) * w n (s * (i - n / 2) * p))%C).
  2:{ intros p Hp. rewrite <- w_add. f_equal. ring. }
  rewrite csum_scal, w_sum by auto. destruct (Z.eqb_spec i (n / 2)) as [->|N].
  - rewrite Z.sub_diag, Z.mul_0_l, !Z.mul_0_r, w_0. destruct (Z.eqb_spec (0 mod n) 0) as [_|B]; [ring|]. rewrite Z.mod_0_l in B; lia.
  - destruct (Z.eqb_spec ((s * (i - n / 2)) mod n) 0) as [B|_]; [|ring]. exfalso.
    apply Z.mod_divide in B; [|lia]. destruct B as [q Hq]. assert (- n < q * n < n) by (destruct Hs; subst s; lia).
    assert (q = 0) by nia. subst q. destruct Hs; subst s; lia.
Qed.
Lemma cdft2_total n s (F : Z -> Z -> C) : 0 < n -> (s = 1 \/ s = -1) ->
  csum2 (cdft2 s n n F) n n = (RtoC (IZR n) * RtoC (IZR n) * F (n / 2)%Z (n / 2)%Z)%C.
Proof.
  intros Hn Hs. rewrite (csum2_ext _ _ n n (fun p q _ _ => cdft2_sum s n n F p q)).
  rewrite csum2_swap4.
  rewrite <- (csum2_delta (fun i j => RtoC (IZR n) * RtoC (IZR n) * F i j)%C n n (n / 2) (n / 2)) by lia.
  apply csum2_ext. intros i j Hi Hj. rewrite csum2_scal. unfold csum2. rewrite <- csum_prod.
  rewrite !csum_w_centre by auto. destruct (i =? n / 2), (j =? n / 2); cbn [andb]; ring.
Qed.
Lemma cdft2_centre n s (F : Z -> Z -> C) : 0 < n -> cdft2 s n n F (n / 2) (n / 2) = csum2 F n n.
Proof.
  intros Hn. rewrite cdft2_sum. apply csum2_ext. intros i j _ _. rewrite !Z.sub_diag, !Z.mul_0_r, !w_0. ring.
Qed.
Lemma resample_mean mid n m out : nr mid = n -> nc mid = n -> 0 < n -> 0 < m -> resample mid m = Ok out ->
  cmean_of out = cmean_of mid.
Proof.
  intros N1 N2 Hn Hm E. destruct (resample_ok mid n m N1 N2 Hn Hm) as (out' & E' & R1 & R2 & V).
  assert (out' = out) by congruence. subst out'. unfold cmean_of. rewrite R1, R2, N1, N2.
  rewrite (csum2_ext _ _ m m (fun p q _ _ => V p q)). rewrite cdft2_total by auto.
  replace (m / 2 - m / 2 + n / 2) with (n / 2) by ring.
  assert (B : in_arrb mid (n / 2) (n / 2) = true) by (apply in_arrb_spec; unfold in_arr; lia). rewrite B, cdft2_centre by auto.
  rewrite !RtoC_mult. assert (RtoC (IZR n) <> RtoC 0) by (apply RC_neq0, IZR_neq; lia).
  assert (RtoC (IZR m) <> RtoC 0) by (apply RC_neq0, IZR_neq; lia). field. auto.
Qed.
Lemma cdft2_const n s (c : C) k l : 0 < n -> (s = 1 \/ s = -1) -> 0 <= k < n -> 0 <= l < n ->
  cdft2 s n n (fun _ _ => c) k l = if (k =? n / 2) && (l =? n / 2) then (RtoC (IZR n) * RtoC (IZR n) * c)%C else RtoC 0.
Proof.
  intros Hn Hs Hk Hl. rewrite cdft2_sum, csum2_scal. unfold csum2. rewrite <- csum_prod.
  rewrite (csum_ext (fun i => w n (s * ((i - n / 2) * (k - n / 2)))) (fun i => w n (s * ((k - n / 2) * (i - n / 2))))) by (intros; f_equal; ring).
  rewrite (csum_ext (fun j => w n (s * ((j - n / 2) * (l - n / 2)))) (fun j => w n (s * ((l - n / 2) * (j - n / 2))))) by (intros; f_equal; ring).
  rewrite !csum_w_centre by auto. destruct (k =? n / 2), (l =? n / 2); cbn [andb]; ring.
Qed.
Lemma resample_const mid n m c : nr mid = n -> nc mid = n -> 0 < n -> 0 < m -> (forall i j, in_arr mid i j -> at2 mid i j = c) ->
  exists out, resample mid m = Ok out /\ nr out = m /\ nc out = m /\ forall p q, at2 out p q = c.
Proof.
  intros N1 N2 Hn Hm Hc. destruct (resample_ok mid n m N1 N2 Hn Hm) as (out & E & R1 & R2 & V).
  exists out. split; [auto|]. split; [auto|]. split; [auto|]. intros p q. rewrite V.
  rewrite (cdft2_ext _ _ _ _ (fun i j => if (i =? m / 2) && (j =? m / 2) then c else RtoC 0)).
  - rewrite cdft2_sum.
    rewrite (csum2_ext _ (fun i j => if (i =? m / 2) && (j =? m / 2) then c else RtoC 0)).
    + rewrite (csum2_delta (fun _ _ => c) m m (m / 2) (m / 2)) by lia. auto.
    + intros i j Hi Hj. destruct (Z.eqb_spec i (m / 2)) as [->|]; cbn [andb]; [|ring].
      destruct (Z.eqb_spec j (m / 2)) as [->|]; [|ring]. rewrite !Z.sub_diag, !Z.mul_0_l, !Z.mul_0_r, !w_0. ring.
  - intros i j Hi Hj. destruct (in_arrb mid (i - m / 2 + n / 2) (j - m / 2 + n / 2)) eqn:B.
    + apply in_arrb_spec in B. unfold in_arr in B. rewrite N1, N2 in B.
      rewrite (cdft2_ext _ _ _ _ (fun _ _ => c)) by (intros; apply Hc; split; lia).
      rewrite cdft2_const by (auto; lia).
      assert (RtoC (IZR n) <> RtoC 0) by (apply RC_neq0, IZR_neq; lia).
      destruct (Z.eqb_spec i (m / 2)), (Z.eqb_spec (i - m / 2 + n / 2) (n / 2)); try lia; cbn [andb];
      destruct (Z.eqb_spec j (m / 2)), (Z.eqb_spec (j - m / 2 + n / 2) (n / 2)); try lia; rewrite ?RtoC_mult; field; auto.
    + destruct (Z.eqb_spec i (m / 2)) as [->|]; cbn [andb]; auto. destruct (Z.eqb_spec j (m / 2)) as [->|]; auto.
      exfalso. apply in_arrb_false in B. apply B. unfold in_arr. lia.
Qed.

(** ** The starting transmission *)
Lemma all_some_ok {A} (l : list (option A)) r : all_some l = Some r -> l = map Some r.
Proof.
  revert r. induction l as [|[x|] l IH]; cbn; intros r H; try congruence.
  - injection H as <-. auto.
  - destruct (all_some l) eqn:E; [|discriminate]. injection H as <-. cbn. rewrite (IH l0); auto.
Qed.
Lemma scatter_nth {A} (pm : list R) (sub : A) coef : List.length coef = List.length (filter (Rltb 0) pm) ->
  List.length (scatter pm sub coef) = List.length pm /\
  forall k h, nth_error pm k = Some h ->
    nth_error (scatter pm sub coef) k = if Rltb 0 h then nth_error coef (List.length (filter (Rltb 0) (firstn k pm))) else Some sub.
Proof.
  revert coef. induction pm as [|x pm IH]; cbn [scatter filter List.length]; intros coef L.
  - split; auto. intros [|k] h; discriminate.
  - destruct (Rltb 0 x) eqn:E.
    + destruct coef as [|c cs]; [discriminate|]. cbn [List.length] in *. destruct (IH cs ltac:(lia)) as [I1 I2]. split; [lia|].
      intros [|k] h Hk; cbn in Hk |- *; [injection Hk as <-; rewrite E; auto|].
      rewrite E. cbn [List.length nth_error]. rewrite (I2 k h Hk). auto.
    + destruct (IH coef L) as [I1 I2]. cbn [List.length]. split; [lia|].
      intros [|k] h Hk; cbn in Hk |- *; [injection Hk as <-; rewrite E; auto|]. rewrite E. apply I2; auto.
Qed.
Lemma filter_firstn_nth {A} (f : A -> bool) l k x : nth_error l k = Some x -> f x = true ->
  nth_error (filter f l) (List.length (filter f (firstn k l))) = Some x.
Proof.
  revert k. induction l as [|y l IH]; intros [|k] H F; try discriminate; cbn in H |- *.
  - injection H as ->. rewrite F. auto.
  - destruct (f y); cbn [List.length nth_error]; apply IH; auto.
Qed.
Lemma nth_error_zrange n k : 0 <= k < n -> nth_error (zrange n) (Z.to_nat k) = Some k.
Proof.
  intros H. unfold zrange.
  erewrite map_nth_error; [f_equal; apply Z2Nat.id; lia|].
  rewrite (nth_error_nth' _ 0%nat) by (rewrite seq_length; lia). rewrite seq_nth by lia. auto.
Qed.
Lemma nth_error_prod {A B} (l : list A) (l' : list B) i j a b : nth_error l i = Some a -> nth_error l' j = Some b ->
  nth_error (list_prod l l') (i * List.length l' + j) = Some (a, b).
Proof.
  revert i. induction l as [|x l IH]; intros [|i] Ha Hb; try discriminate; cbn [list_prod nth_error] in *.
  - injection Ha as ->. cbn [Nat.mul Nat.add]. rewrite nth_error_app1.
    + apply (map_nth_error (fun y => (a, y))). auto.
    + rewrite map_length. apply nth_error_Some. congruence.
  - cbn [Nat.mul]. rewrite nth_error_app2 by (rewrite map_length; lia). rewrite map_length.
    replace (List.length l' + i * List.length l' + j - List.length l')%nat with (i * List.length l' + j)%nat by lia. auto.
Qed.
Lemma nth_error_elements {A} (a : arr A) i j : in_arr a i j -> nth_error (elements a) (Z.to_nat (i * nc a + j)) = Some (at2 a i j).
Proof.
  intros [Hi Hj]. unfold elements. rewrite (map_nth_error _ _ _ (d := (i, j))); [reflexivity|]. unfold indices.
  replace (Z.to_nat (i * nc a + j)) with (Z.to_nat i * List.length (zrange (nc a)) + Z.to_nat j)%nat.
  - apply nth_error_prod; apply nth_error_zrange; auto.
  - pose proof (length_zrange (nc a) ltac:(lia)).
    apply Nat2Z.inj. rewrite Nat2Z.inj_add, Nat2Z.inj_mul, H, !Z2Nat.id by nia. auto.
Qed.
