(** numpy.fft: fft2, ifft2, fftshift, ifftshift by their definitions, and what they compose to. *)
From Coq Require Import ZArith Bool Reals Lra Lia.
From Coquelicot Require Import Complex.
From Verif.Base Require Import Py Arr Sums CSum.
Open Scope Z_scope.

(** numpy: A_kl = sum_ij a_ij exp(-2 pi i (ik/n + jl/m)); numpy raises on empty axes. *)
Definition nonempty {A} (e : arr A) : bool := (0 <? nr e) && (0 <? nc e).
Definition fft2_at (e : arr C) (k l : Z) : C :=
  csum2 (fun i j => at2 e i j * cis (- 2 * PI * (IZR (i * k) / IZR (nr e) + IZR (j * l) / IZR (nc e))))%C
    (nr e) (nc e).
Definition fft2 (e : arr C) : res (arr C) :=
  check nonempty e else ValueError; Ok (Arr (nr e) (nc e) (fft2_at e)).
(** numpy: the same with the opposite sign and a factor 1/(nm). *)
Definition ifft2_at (e : arr C) (k l : Z) : C :=
  (csum2 (fun i j => at2 e i j * cis (2 * PI * (IZR (i * k) / IZR (nr e) + IZR (j * l) / IZR (nc e))))
    (nr e) (nc e) / RtoC (IZR (nr e) * IZR (nc e)))%C.
Definition ifft2 (e : arr C) : res (arr C) :=
  check nonempty e else ValueError; Ok (Arr (nr e) (nc e) (ifft2_at e)).
(** numpy.roll of both axes: out[(i+s) mod n] = in[i]. *)
Definition roll2 {A} (e : arr A) (sr sc : Z) : arr A :=
  Arr (nr e) (nc e) (fun i j => at2 e ((i - sr) mod nr e) ((j - sc) mod nc e)).
(** numpy: fftshift rolls by n//2, ifftshift by -(n//2). *)
Definition fftshift {A} (e : arr A) : arr A := roll2 e (nr e / 2) (nc e / 2).
Definition ifftshift {A} (e : arr A) : arr A := roll2 e (- (nr e / 2)) (- (nc e / 2)).

Lemma nonempty_true {A} (e : arr A) : 0 < nr e -> 0 < nc e -> nonempty e = true.
Proof. unfold nonempty. intros. destruct (Z.ltb_spec 0 (nr e)), (Z.ltb_spec 0 (nc e)); auto; lia. Qed.

Lemma fft2_kernel n m i j k l :
  cis (- 2 * PI * (IZR (i * k) / IZR n + IZR (j * l) / IZR m)) = (w n (- (i * k)) * w m (- (j * l)))%C.
Proof. unfold w. rewrite <- cis_add, !opp_IZR. f_equal. unfold Rdiv. ring. Qed.
Lemma ifft2_kernel n m i j k l :
  cis (2 * PI * (IZR (i * k) / IZR n + IZR (j * l) / IZR m)) = (w n (i * k) * w m (j * l))%C.
Proof. unfold w. rewrite <- cis_add. f_equal. ring. Qed.

(** Sum over a rolled array. *)
Lemma csum2_roll (f : Z -> Z -> C) n m a b : 0 < n -> 0 < m ->
  csum2 (fun i j => f ((i + a) mod n) ((j + b) mod m)) n m = csum2 f n m.
Proof.
  intros Hn Hm. unfold csum2.
  rewrite (csum_roll (fun i => csum (fun j => f i ((j + b) mod m)) m) n a) by auto.
  apply csum_ext. intros i Hi. apply (csum_roll (fun j => f i j)); auto.
Qed.

(** The shifted transforms are the centred transforms. *)
Lemma shifted_sum s (e : arr C) k l : 0 < nr e -> 0 < nc e ->
  csum2 (fun i j => at2 e ((i - - (nr e / 2)) mod nr e) ((j - - (nc e / 2)) mod nc e)
     * (w (nr e) (s * (i * ((k - nr e / 2) mod nr e))) * w (nc e) (s * (j * ((l - nc e / 2) mod nc e)))))%C
    (nr e) (nc e)
  = cdft2 s (nr e) (nc e) (at2 e) k l.
Proof.
  intros Hn Hm. rewrite cdft2_sum.
  rewrite <- (csum2_roll (fun i j => at2 e i j * (w (nr e) (s * ((i - nr e / 2) * (k - nr e / 2))) *
      w (nc e) (s * ((j - nc e / 2) * (l - nc e / 2)))))%C (nr e) (nc e) (nr e / 2) (nc e / 2)) by auto.
  apply csum2_ext. intros i j Hi Hj. rewrite !Z.sub_opp_r. do 2 f_equal.
  - pose proof (Z.div_mod (k - nr e / 2) (nr e) ltac:(lia)) as D1.
    pose proof (Z.div_mod (i + nr e / 2) (nr e) ltac:(lia)) as D2.
    set (p := (k - nr e / 2) mod nr e) in *. set (q := (i + nr e / 2) mod nr e) in *.
    apply (w_congr _ _ _ (s * ((i + nr e / 2) / nr e * (k - nr e / 2) - i * ((k - nr e / 2) / nr e)))); [lia|].
    replace (k - nr e / 2) with (nr e * ((k - nr e / 2) / nr e) + p) at 2 by lia.
    replace q with (i + nr e / 2 - nr e * ((i + nr e / 2) / nr e)) by lia.
    set (u := (k - nr e / 2) / nr e) in *. rewrite D1. ring.
  - pose proof (Z.div_mod (l - nc e / 2) (nc e) ltac:(lia)) as D1.
    pose proof (Z.div_mod (j + nc e / 2) (nc e) ltac:(lia)) as D2.
    set (p := (l - nc e / 2) mod nc e) in *. set (q := (j + nc e / 2) mod nc e) in *.
    apply (w_congr _ _ _ (s * ((j + nc e / 2) / nc e * (l - nc e / 2) - j * ((l - nc e / 2) / nc e)))); [lia|].
    replace q with (j + nc e / 2 - nc e * ((j + nc e / 2) / nc e)) by lia.
    set (u := (l - nc e / 2) / nc e) in *. rewrite D1. ring.
Qed.
Lemma fftshift_fft2 (e : arr C) : 0 < nr e -> 0 < nc e ->
  exists o, fft2 (ifftshift e) = Ok o /\ nr (fftshift o) = nr e /\ nc (fftshift o) = nc e /\
  forall k l, at2 (fftshift o) k l = cdft2 (-1) (nr e) (nc e) (at2 e) k l.
Proof.
  intros Hn Hm. unfold fft2. rewrite nonempty_true by auto. eexists; split; [reflexivity|].
  split; [reflexivity|]. split; [reflexivity|]. intros k l.
  rewrite <- shifted_sum by auto. cbn [fftshift roll2 at2 nr nc ifftshift]. unfold fft2_at. cbn [nr nc at2 ifftshift roll2].
  apply csum2_ext. intros i j Hi Hj. rewrite fft2_kernel.
  f_equal; try (f_equal; f_equal; ring).
Qed.
Lemma fftshift_ifft2 (e : arr C) : 0 < nr e -> 0 < nc e ->
  exists o, ifft2 (ifftshift e) = Ok o /\ nr (fftshift o) = nr e /\ nc (fftshift o) = nc e /\
  forall k l, at2 (fftshift o) k l
    = (cdft2 1 (nr e) (nc e) (at2 e) k l / RtoC (IZR (nr e) * IZR (nc e)))%C.
Proof.
  intros Hn Hm. unfold ifft2. rewrite nonempty_true by auto. eexists; split; [reflexivity|].
  split; [reflexivity|]. split; [reflexivity|]. intros k l.
  rewrite <- shifted_sum by auto. cbn [fftshift roll2 at2 nr nc ifftshift]. unfold ifft2_at. cbn [nr nc at2 ifftshift roll2].
  f_equal. apply csum2_ext. intros i j Hi Hj. rewrite ifft2_kernel.
  f_equal; try (f_equal; f_equal; ring).
Qed.
