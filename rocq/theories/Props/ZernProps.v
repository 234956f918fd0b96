(** Properties C10-C13: Noll Zernike polynomials, gen_zernikes, fit_zernikes. *)
From Coq Require Import ZArith Reals List Bool Lia Lra Permutation.
From Verif.Base Require Import Py F64 Arr Sums Trig Lstsq.
From Verif.Model Require Import Math Noll.
From Verif.Spec Require Import MathSpec ZernikeSpec.
From Verif.Proofs Require Import MathP NollP ZernP.
Import ListNotations.
Open Scope Z_scope.

(** C10. The orders computed by the code for index j are exactly those of Noll's table. *)
Theorem C10_noll_decode : forall j n m, 1 <= j ->
  (noll_n j = n /\ noll_m j = m <-> noll_index j n m).
Proof. exact noll_decode_iff. Qed.
Print Assumptions C10_noll_decode.
(** C10. Noll's table is a bijection: every admissible (n,0) has one index, every (n,m>0) exactly one
    even (cosine) and one odd (sine) index, which are consecutive; indices of order n fill the
    interval ]n(n+1)/2, (n+1)(n+2)/2]. *)
Theorem C10_noll_bijection : forall n m, 0 <= m <= n -> Z.Even (n - m) ->
  (m = 0 -> exists j, noll_index j n m /\ forall j', noll_index j' n m -> j' = j) /\
  (0 < m -> exists jc js, Z.Even jc /\ Z.Odd js /\ Z.abs (jc - js) = 1 /\
     noll_index jc n m /\ noll_index js n m /\
     forall j', noll_index j' n m -> j' = jc \/ j' = js).
Proof. exact noll_bijection. Qed.
Print Assumptions C10_noll_bijection.
Theorem C10_noll_range : forall j, 1 <= j ->
  let n := noll_n j in let m := noll_m j in
  0 <= m <= n /\ Z.Even (n - m) /\ n * (n + 1) / 2 < j <= (n + 1) * (n + 2) / 2.
Proof. exact noll_range. Qed.
Print Assumptions C10_noll_range.
(** C10. The double-precision evaluation gives the same radial order for every index up to 2^48. *)
Theorem C10_noll_binary64 : forall j, 1 <= j <= 2 ^ 48 -> noll_np1_f j = Ok (noll_n j + 1).
Proof. exact noll_binary64. Qed.
Print Assumptions C10_noll_binary64.
Example C10_ex : noll_n 11 = 4 /\ noll_m 11 = 0 /\ noll_n 8 = 3 /\ noll_m 8 = 1 /\ noll_np1_f 11 = Ok 5.
Proof. exact noll_examples. Qed.

(** C11. Every plane of xyzern is Noll's polynomial at the polar coordinates of the points. *)
Theorem C11_xyzern : forall x y prad orders, nr x = nr y -> nc x = nc y -> (0 < prad)%R ->
  orders <> [] -> (forall j, In j orders -> 1 <= j) ->
  exists cube, xyzern x y prad orders = Ok cube /\ List.length cube = List.length orders /\
  forall k j a, nth_error orders k = Some j -> nth_error cube k = Some a ->
    nr a = nr x /\ nc a = nc x /\
    forall r c n m rho th, in_arr x r c -> noll_index j n m ->
      polar_of (at2 x r c) (at2 y r c) rho th ->
      at2 a r c = noll_zernike j n m (rho / prad) th.
Proof. exact xyzern_ok. Qed.
Print Assumptions C11_xyzern.
Theorem C11_xyzern_errors : forall x y prad orders e, xyzern x y prad orders = Err e ->
  (e = TypeError /\ ((prad <= 0)%R \/ nr x <> nr y \/ nc x <> nc y \/ exists j, In j orders /\ j <= 0))
  \/ (e = ValueError /\ orders = []).
Proof. exact xyzern_errors. Qed.
Print Assumptions C11_xyzern_errors.
(** C11. The recurrences of the code give the textbook coefficients. *)
Theorem C11_coefficients : forall n m k, 0 <= m <= n -> Z.Even (n - m) -> 0 <= k <= (n - m) / 2 ->
  let t := coef_tables n m in
  (rnum t k / (rden0 t k * rden1 t k * rden2 t k) = radial_coef n m k)%R.
Proof. exact coef_ok. Qed.
Print Assumptions C11_coefficients.
(** C11. The radial polynomials are 1 at the edge of the unit circle. *)
Theorem C11_radial_edge : forall n m, 0 <= m <= n -> Z.Even (n - m) -> radial n m 1 = 1%R.
Proof. exact radial_one. Qed.
Print Assumptions C11_radial_edge.
Example C11_focus : forall r, (radial 2 0 r = 2 * r ^ 2 - 1)%R.
Proof. exact radial_focus. Qed.

(** C12. Every pixel of gen_zernikes is the combination of the modes about the shifted centre. *)
Theorem C12_gen_zernikes : forall inds coefs xo yo nBeam nArray Zf,
  is_mode_fun (nBeam / 2) Zf ->
  List.length inds = List.length coefs -> inds <> [] -> (forall j, In j inds -> 1 <= j) ->
  (0 < nBeam)%R -> 0 < nArray -> nArray <> 1000000 ->
  exists out, gen_zernikes inds coefs xo yo nBeam nArray = Ok out /\ nr out = nArray /\ nc out = nArray /\
    forall r c, 0 <= r < nArray -> 0 <= c < nArray ->
      at2 out r c = fold_right Rplus 0%R (map (fun cj => fst cj * Zf (snd cj)
          (IZR (c - nArray / 2) - xo) (IZR (r - nArray / 2) - yo))%R (combine coefs inds)).
Proof. exact gen_zernikes_modes. Qed.
Print Assumptions C12_gen_zernikes.
Example C12_mode_fun_ex : exists Zf, is_mode_fun (10 / 2) Zf.
Proof. eexists. apply mode_fun_ex. lra. Qed.
Theorem C12_defined_iff : forall inds coefs xo yo nBeam nArray,
  (exists out, gen_zernikes inds coefs xo yo nBeam nArray = Ok out) <->
  (List.length inds = List.length coefs /\ inds <> [] /\ (forall j, In j inds -> 1 <= j) /\
   (0 < nBeam)%R /\ 0 < nArray).
Proof. exact gen_zernikes_total. Qed.
Print Assumptions C12_defined_iff.
Theorem C12_linear : forall inds c1 c2 a b xo yo nBeam nArray o1 o2 o,
  List.length c1 = List.length inds -> List.length c2 = List.length inds ->
  inds <> [] -> (forall j, In j inds -> 1 <= j) -> (0 < nBeam)%R -> 0 < nArray ->
  gen_zernikes inds c1 xo yo nBeam nArray = Ok o1 ->
  gen_zernikes inds c2 xo yo nBeam nArray = Ok o2 ->
  gen_zernikes inds (map (fun p => a * fst p + b * snd p)%R (combine c1 c2)) xo yo nBeam nArray = Ok o ->
  aeq o (amap2 (fun u v => a * u + b * v)%R o1 o2).
Proof. exact gen_zernikes_linear. Qed.
Print Assumptions C12_linear.
Theorem C12_concatenation : forall i1 c1 i2 c2 xo yo nBeam nArray o1 o2 o,
  List.length i1 = List.length c1 -> List.length i2 = List.length c2 ->
  i1 <> [] -> i2 <> [] -> (forall j, In j (i1 ++ i2) -> 1 <= j) -> (0 < nBeam)%R -> 0 < nArray ->
  gen_zernikes i1 c1 xo yo nBeam nArray = Ok o1 ->
  gen_zernikes i2 c2 xo yo nBeam nArray = Ok o2 ->
  gen_zernikes (i1 ++ i2) (c1 ++ c2) xo yo nBeam nArray = Ok o ->
  aeq o (amap2 Rplus o1 o2).
Proof. exact gen_zernikes_app. Qed.
Print Assumptions C12_concatenation.
Theorem C12_permutation : forall inds coefs inds' coefs' xo yo nBeam nArray out out',
  List.length inds = List.length coefs -> List.length inds' = List.length coefs' ->
  Permutation (combine coefs inds) (combine coefs' inds') ->
  gen_zernikes inds coefs xo yo nBeam nArray = Ok out ->
  gen_zernikes inds' coefs' xo yo nBeam nArray = Ok out' -> aeq out out'.
Proof. exact gen_zernikes_perm. Qed.
Print Assumptions C12_permutation.
(** C12. Automatic size, centred beam: even, contains the beam with pixel edges, wastes < 3 pixels. *)
Theorem C12_auto_size_centred : forall nBeam, (0 < nBeam)%R ->
  let N := auto_size nBeam 0 0 in Z.Even N /\
  (IZR (0 - N / 2) - / 2 <= - (nBeam / 2))%R /\ (nBeam / 2 <= IZR (N - 1 - N / 2) + / 2)%R /\
  (IZR N < nBeam + 3)%R.
Proof. exact auto_size_contains. Qed.
Print Assumptions C12_auto_size_centred.
(** C12 refuted. With an offset the automatic array does not contain the beam: its right edge lies
    beyond the right edge of the last pixel. *)
Theorem C12_auto_size_offset_refuted : exists nBeam xo yo : R, (0 < nBeam)%R /\
  (IZR (auto_size nBeam xo yo - 1 - auto_size nBeam xo yo / 2) + / 2 < xo + nBeam / 2)%R.
Proof. exact auto_size_refuted. Qed.
Print Assumptions C12_auto_size_offset_refuted.
Example C12_ex : exists o, gen_zernikes [4; 2] [1; -1]%R 0 0 8 10 = Ok o.
Proof.
  apply gen_zernikes_total. repeat split; try lia; try lra; [discriminate|].
  intros j [<-|[<-|[]]]; lia.
Qed.

(** C13. An exact combination of the fitted modes is recovered, when the modes are independent on the
    usable pixels. [lstsq] is any function returning least-squares solutions. *)
Theorem C13_fit_recovers : forall lstsq, is_lstsq_oracle lstsq ->
  forall wfe usable maxNoll nBeam dx dy, nr wfe = nr usable -> nc wfe = nc usable ->
  1 <= maxNoll -> (0 < nBeam)%R -> forall Zf, is_mode_fun (nBeam / 2) Zf -> forall a,
  modes_independent maxNoll Zf dx dy wfe usable ->
  (forall r c, used usable r c -> at2 wfe r c = mode_comb maxNoll Zf dx dy wfe a r c) ->
  exists v, fit_zernikes lstsq wfe usable maxNoll nBeam dx dy = Ok v /\
  forall k, 0 <= k < maxNoll -> v k = a k.
Proof. exact fit_recovers. Qed.
Print Assumptions C13_fit_recovers.
(** C13. For any map, the residual is orthogonal to every fitted mode and of least energy. *)
Theorem C13_fit_optimal : forall lstsq, is_lstsq_oracle lstsq ->
  forall wfe usable maxNoll nBeam dx dy, nr wfe = nr usable -> nc wfe = nc usable ->
  1 <= maxNoll -> (0 < nBeam)%R -> forall Zf, is_mode_fun (nBeam / 2) Zf ->
  exists v, fit_zernikes lstsq wfe usable maxNoll nBeam dx dy = Ok v /\
  (forall k, 0 <= k < maxNoll ->
    usable_sum usable (fun r c => mode_at Zf dx dy wfe (k + 1) r c *
       (at2 wfe r c - mode_comb maxNoll Zf dx dy wfe v r c))%R = 0%R) /\
  (forall a, (usable_sum usable (fun r c => (at2 wfe r c - mode_comb maxNoll Zf dx dy wfe v r c) ^ 2)
     <= usable_sum usable (fun r c => (at2 wfe r c - mode_comb maxNoll Zf dx dy wfe a r c) ^ 2))%R).
Proof. exact fit_orthogonal. Qed.
Print Assumptions C13_fit_optimal.
Theorem C13_fit_errors : forall lstsq wfe usable maxNoll nBeam dx dy e,
  fit_zernikes lstsq wfe usable maxNoll nBeam dx dy = Err e ->
  (e = ValueError /\ (nr wfe <> nr usable \/ nc wfe <> nc usable \/ maxNoll <= 0)) \/
  (e = TypeError /\ (nBeam <= 0)%R).
Proof. exact fit_errors. Qed.
Print Assumptions C13_fit_errors.
(** The oracle hypothesis is satisfiable, and the independence hypothesis holds in a simple case. *)
Example C13_oracle_ex : exists lstsq : lstsq_fun, is_lstsq_oracle lstsq.
Proof. exists lstsq_ref. apply lstsq_ref_ok. Qed.
Example C13_indep_ex : exists Zf, is_mode_fun (2 / 2) Zf /\
  modes_independent 1 Zf 0%R 0%R (afull 1 1 0%R) (afull 1 1 1%R).
Proof. eexists. split; [apply mode_fun_ex; lra|exact fit_example_indep]. Qed.
