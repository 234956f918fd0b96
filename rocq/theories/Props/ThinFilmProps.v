(** C47, C48, C66, C67, C68: the thin-film solver and the occulter coefficients. *)
From Coq Require Import ZArith Bool List String Reals Lra Lia.
From Coquelicot Require Import Complex.
From Verif.Base Require Import Py CSum.
From Verif.Model Require Import ThinFilm.
From Verif.Spec Require Import ThinFilmSpec.
From Verif.Proofs Require Import ThinFilmP ThinFilmQ ThinFilmR ThinFilmS.
Import ListNotations.
Open Scope list_scope.
Open Scope R_scope.

(** C47. Transparent media: reflectance and transmittance are finite and sum to one, for both polarisations, any thickness
    (even negative) and any angle, as long as light does not travel exactly parallel to a film. *)
Theorem C47_energy x0 films final theta lam tm : 0 < x0 -> 0 <= theta -> theta < PI / 2 -> 0 < lam ->
  (forall p, In p films -> transparent (fst p) /\ ~ grazing x0 theta (fst p)) -> transparent final ->
  exists refl trans rr tc,
    solver (stack_n x0 films final) (stack_d films) theta lam tm = Ok (Some (refl, trans, rr, Some tc)) /\
    refl = Cmod rr ^ 2 /\ trans = Cmod tc ^ 2 /\ refl + trans = 1.
Proof. exact (energy_lem x0 films final theta lam tm). Qed.
Print Assumptions C47_energy.

(** Beyond the critical angle of the final medium everything is reflected. *)
Theorem C47_total_reflection x0 films x1 theta lam tm : 0 < x0 -> 0 <= theta -> theta < PI / 2 -> 0 < lam ->
  (forall p, In p films -> transparent (fst p) /\ ~ grazing x0 theta (fst p)) -> 0 < x1 -> x1 <= x0 * sin theta ->
  exists rr tc, solver (stack_n x0 films (RtoC x1)) (stack_d films) theta lam tm = Ok (Some (1, 0, rr, Some tc)) /\
    Cmod rr = 1 /\ tc = 0%C.
Proof. exact (fun Hx H0 H1 Hl Hf Hn Hc => total_reflection_lem x0 theta lam tm films x1 Hx H0 H1 Hl Hf Hn Hc). Qed.
Print Assumptions C47_total_reflection.

(** The excluded case is real: a film in which light travels exactly parallel to the boundaries makes every output NaN. *)
Theorem C47_grazing x0 films final theta lam tm p : 0 < x0 -> 0 <= theta -> theta < PI / 2 -> 0 < lam ->
  In p films -> passive (fst p) -> grazing x0 theta (fst p) ->
  solver (stack_n x0 films final) (stack_d films) theta lam tm = Ok None.
Proof. exact (grazing_lem x0 theta lam tm films final p). Qed.
Print Assumptions C47_grazing.

(** Inputs are rejected exactly when the number of thicknesses, the angle or the wavelength is wrong. *)
Theorem C47_domain n d0 theta lam tm :
  (solver n d0 theta lam tm = Err ValueError <->
     ~ (List.length n = (List.length d0 + 2)%nat /\ 0 <= theta /\ theta < PI / 2 /\ 0 < lam)) /\
  (forall e, solver n d0 theta lam tm = Err e -> e = ValueError).
Proof. exact (solver_domain_lem n d0 theta lam tm). Qed.
Print Assumptions C47_domain.

(** C48. A zero-thickness film of any complex index, anywhere in any stack, changes no finite output. *)
Theorem C48_zero_film n0 final f1 f2 m theta lam tm o o' : 0 <= theta -> theta < PI / 2 -> 0 < lam ->
  solver (n0 :: map fst (f1 ++ (m, 0) :: f2) ++ [final]) (map snd (f1 ++ (m, 0) :: f2)) theta lam tm = Ok (Some o) ->
  solver (n0 :: map fst (f1 ++ f2) ++ [final]) (map snd (f1 ++ f2)) theta lam tm = Ok (Some o') -> o = o'.
Proof. exact (fun H0 H1 Hl => zero_film_lem n0 final theta lam tm f1 f2 H0 H1 Hl m o o'). Qed.
Print Assumptions C48_zero_film.

(** In a stack of passive media the outputs are finite with and without it, hence equal. *)
Theorem C48_zero_film_passive x0 f1 f2 m final theta lam tm : 0 < x0 -> 0 <= theta -> theta < PI / 2 -> 0 < lam ->
  (forall p, In p (f1 ++ f2) -> passive (fst p) /\ ~ grazing x0 theta (fst p) /\ 0 <= snd p) -> passive final ->
  passive m -> ~ grazing x0 theta m ->
  solver (stack_n x0 (f1 ++ (m, 0) :: f2) final) (stack_d (f1 ++ (m, 0) :: f2)) theta lam tm =
  solver (stack_n x0 (f1 ++ f2) final) (stack_d (f1 ++ f2)) theta lam tm.
Proof. exact (zero_passive_lem x0 theta lam tm f1 f2 m final). Qed.
Print Assumptions C48_zero_film_passive.

(** Splitting a film of any complex index into two of the same index changes nothing at all. *)
Theorem C48_split n0 final f1 f2 m d1 d2 theta lam tm : 0 <= theta -> theta < PI / 2 -> 0 < lam ->
  solver (n0 :: map fst (f1 ++ (m, d1) :: (m, d2) :: f2) ++ [final]) (map snd (f1 ++ (m, d1) :: (m, d2) :: f2)) theta lam tm =
  solver (n0 :: map fst (f1 ++ (m, d1 + d2) :: f2) ++ [final]) (map snd (f1 ++ (m, d1 + d2) :: f2)) theta lam tm.
Proof. exact (fun H0 H1 Hl => split_film_lem n0 final theta lam tm f1 f2 H0 H1 Hl m d1 d2). Qed.
Print Assumptions C48_split.

(** C66. Passive media: the stack never returns more energy than it receives. *)
Theorem C66_passive x0 films final theta lam tm : 0 < x0 -> 0 <= theta -> theta < PI / 2 -> 0 < lam ->
  (forall p, In p films -> passive (fst p) /\ ~ grazing x0 theta (fst p) /\ (0 <= snd p \/ transparent (fst p))) -> passive final ->
  exists refl trans rr tc,
    solver (stack_n x0 films final) (stack_d films) theta lam tm = Ok (Some (refl, trans, rr, Some tc)) /\
    refl = Cmod rr ^ 2 /\ trans = Cmod tc ^ 2 /\ refl + trans <= 1.
Proof. exact (passive_lem x0 films final theta lam tm). Qed.
Print Assumptions C66_passive.

(** The occulter coefficients computed from the shipped material tables are finite, one per pixel, and passive, for every
    wavelength from 0.2 to 4 micrometres, angle below 90 degrees, polarisation setting and phase convention. *)
Theorem C66_occulter lam aoi tTi tNi tPMGI d0 pol opd substrate :
  0 < lam /\ 0 <= aoi /\ aoi < 90 /\ List.length tTi = List.length tNi /\ List.length tNi = List.length tPMGI /\ 0 < d0 /\
  (pol = 0 \/ pol = 1 \/ pol = 2)%Z /\ (substrate = "FS" \/ substrate = "FUSEDSILICA")%string ->
  2 / 10 <= lam * 1000000 <= 4 ->
  (forall x, In x tTi -> 0 <= x) -> (forall x, In x tNi -> 0 <= x) -> (forall x, In x tPMGI -> 0 <= x) ->
  exists out, calc_complex_occulter shipped lam aoi tTi tNi tPMGI d0 pol opd substrate = Ok (map fst out, map snd out) /\
    List.length out = List.length tNi /\
    (forall p, In p out -> exists tc rc, p = (Some tc, Some rc) /\ Cmod tc ^ 2 + Cmod rc ^ 2 <= 1).
Proof. exact (occulter_passive_lem lam aoi tTi tNi tPMGI d0 pol opd substrate). Qed.
Print Assumptions C66_occulter.

(** Everything else is a ValueError; in particular the substrates NBK7, N-BK7 and BK7, which the argument check accepts. *)
Theorem C66_rejects fd lam aoi tTi tNi tPMGI d0 pol opd substrate :
  ~ (0 < lam /\ 0 <= aoi /\ aoi < 90 /\ List.length tTi = List.length tNi /\ List.length tNi = List.length tPMGI /\ 0 < d0 /\
     (pol = 0 \/ pol = 1 \/ pol = 2)%Z /\ (substrate = "FS" \/ substrate = "FUSEDSILICA")%string) ->
  calc_complex_occulter fd lam aoi tTi tNi tPMGI d0 pol opd substrate = Err ValueError.
Proof. exact (proj2 (occulter_unfold fd lam aoi tTi tNi tPMGI d0 pol opd substrate)). Qed.
Print Assumptions C66_rejects.

(** The two phase conventions give complex-conjugate coefficients. *)
Theorem C66_convention fd lam aoi tTi tNi tPMGI d0 pol substrate :
  calc_complex_occulter fd lam aoi tTi tNi tPMGI d0 pol false substrate =
  match calc_complex_occulter fd lam aoi tTi tNi tPMGI d0 pol true substrate with
  | Ok (ts, rs) => Ok (map (option_map Cconj) ts, map (option_map Cconj) rs) | Err e => Err e end.
Proof. exact (occulter_opd_lem fd lam aoi tTi tNi tPMGI d0 pol substrate). Qed.
Print Assumptions C66_convention.

(** Over the visible and near infrared the index of PMGI is that of a clear resin with normal dispersion. *)
Theorem C66_pmgi um um' : 4 / 10 <= um -> um < um' -> um' <= 1 -> 1529 / 1000 < n_pmgi um' < n_pmgi um /\ n_pmgi um < 1565 / 1000.
Proof. exact (pmgi_range um um'). Qed.
Print Assumptions C66_pmgi.

(** C67. The outputs are those of Airy's recursion over Fresnel coefficients, for every passive stack whose final medium transmits. *)
Theorem C67_airy x0 theta lam tm (films : list medium) nf qf :
  0 < x0 -> 0 <= theta -> theta < PI / 2 -> 0 < lam ->
  (forall m, In m films -> passive (m_n m) /\ ~ grazing x0 theta (m_n m) /\ (0 <= m_d m \/ transparent (m_n m)) /\
     medium_of x0 theta (m_n m) (m_q m)) ->
  passive nf -> medium_of x0 theta nf qf -> 0 < fst qf ->
  let first := (RtoC x0, RtoC (x0 * cos theta), 0) : medium in
  let final := (nf, qf, 0) : medium in
  let r := fst (airy tm lam first (films ++ [final])) in
  let t := snd (airy tm lam first (films ++ [final])) in
  let P := fst (admittance tm final / admittance tm first)%C in
  solver (RtoC x0 :: map m_n films ++ [nf]) (map m_d films) theta lam tm =
    Ok (Some (Cmod r ^ 2, P * Cmod t ^ 2, r, Some (RtoC (sqrt P) * t)%C)).
Proof. exact (solver_airy x0 theta lam tm films nf qf). Qed.
Print Assumptions C67_airy.

(** A single boundary obeys Fresnel's equations, with the refraction angle from Snell's law. *)
Theorem C67_fresnel x0 x1 theta theta1 lam (tm : bool) : 0 < x0 -> 0 < x1 -> 0 <= theta -> theta < PI / 2 -> 0 < lam ->
  - PI / 2 < theta1 < PI / 2 -> x0 * sin theta = x1 * sin theta1 ->
  let a := if tm then x1 * cos theta else x0 * cos theta in
  let b := if tm then x0 * cos theta1 else x1 * cos theta1 in
  solver [RtoC x0; RtoC x1] [] theta lam tm =
    Ok (Some ((((a - b) / (a + b)) ^ 2), 4 * a * b / (a + b) ^ 2, RtoC ((a - b) / (a + b)), Some (RtoC (2 * sqrt (a * b) / (a + b))))).
Proof. exact (fresnel_angles x0 x1 theta theta1 lam tm). Qed.
Print Assumptions C67_fresnel.

(** Every occulter pixel is computed on its own: entry k depends only on the thicknesses of pixel k. *)
Theorem C67_pixelwise fd lam aoi tTi tNi tPMGI d0 pol opd substrate ts rs k a b c :
  calc_complex_occulter fd lam aoi tTi tNi tPMGI d0 pol opd substrate = Ok (ts, rs) ->
  nth_error tTi k = Some a -> nth_error tNi k = Some b -> nth_error tPMGI k = Some c ->
  exists t r, calc_complex_occulter fd lam aoi [a] [b] [c] d0 pol opd substrate = Ok ([t], [r]) /\
    nth_error ts k = Some t /\ nth_error rs k = Some r.
Proof. exact (pixelwise_lem fd lam aoi tTi tNi tPMGI d0 pol opd substrate ts rs k a b c). Qed.
Print Assumptions C67_pixelwise.

(** An occulter pixel is the stack vacuum gap, PMGI, nickel, titanium, fused silica, seen from vacuum, with the gap filling
    up to the reference plane d0; pol 0 is TE and pol 1 is TM. *)
Theorem C67_occulter lam aoi dti dni dpm d0 pol substrate q1 q2 q3 q4 ns :
  0 < lam /\ 0 <= aoi /\ aoi < 90 /\ List.length [dti] = List.length [dni] /\ List.length [dni] = List.length [dpm] /\ 0 < d0 /\
  (pol = 0 \/ pol = 1 \/ pol = 2)%Z /\ (substrate = "FS" \/ substrate = "FUSEDSILICA")%string -> pol <> 2%Z ->
  0 <= dti -> 0 <= dni -> 0 <= dpm -> fused_silica ((lam * 1000000) * (lam * 1000000)) = Some ns -> 0 < ns -> 0 < fst q4 ->
  let theta := aoi * (PI / 180) in
  let um := lam * 1000000 in let npm := RtoC (1524 / 1000 + 5176 / 10 ^ 6 / um ^ 2 + 2105 / 10 ^ 7 / um ^ 4) in
  let nni := index_of nickel (lam * 1000000000) in let nti := index_of titanium (lam * 1000000000) in
  medium_of 1 theta npm q1 -> medium_of 1 theta nni q2 -> medium_of 1 theta nti q3 -> medium_of 1 theta (RtoC ns) q4 ->
  let tm := Z.eqb pol 1 in
  let vacuum := (RtoC 1, RtoC (1 * cos theta), 0) : medium in
  let final := (RtoC ns, q4, 0) : medium in
  let rt := airy tm lam vacuum [(RtoC 1, RtoC (1 * cos theta), d0 - dpm - dni - dti); (npm, q1, dpm); (nni, q2, dni); (nti, q3, dti); final] in
  let P := fst (admittance tm final / admittance tm vacuum)%C in
  calc_complex_occulter shipped lam aoi [dti] [dni] [dpm] d0 pol true substrate =
    Ok ([Some (RtoC (sqrt P) * snd rt)%C], [Some (fst rt)]).
Proof. exact (single_lem' lam aoi dti dni dpm d0 pol substrate q1 q2 q3 q4 ns). Qed.
Print Assumptions C67_occulter.

(** pol 2 is the mean of the two polarisations. *)
Theorem C67_mean fd lam aoi a b c d0 opd substrate t0 r0 t1 r1 :
  calc_complex_occulter fd lam aoi [a] [b] [c] d0 0 opd substrate = Ok ([Some t0], [Some r0]) ->
  calc_complex_occulter fd lam aoi [a] [b] [c] d0 1 opd substrate = Ok ([Some t1], [Some r1]) ->
  calc_complex_occulter fd lam aoi [a] [b] [c] d0 2 opd substrate = Ok ([Some ((t0 + t1) / RtoC 2)%C], [Some ((r0 + r1) / RtoC 2)%C]).
Proof. exact (mean_lem fd lam aoi a b c d0 opd substrate t0 r0 t1 r1). Qed.
Print Assumptions C67_mean.

(** C68. Beyond the critical angle the reflection phase of a transparent final medium has the opposite sign to that of the
    same medium with any absorption, however weak: the phase is discontinuous at zero absorption. *)
Theorem C68_phase_jump x0 x1 theta lam : 0 < x1 -> x1 < x0 * sin theta -> 0 < x0 -> 0 <= theta -> theta < PI / 2 -> 0 < lam ->
  (exists o, solver [RtoC x0; RtoC x1] [] theta lam false = Ok (Some o) /\ snd (refl_amp o) < 0) /\
  (forall eps, 0 < eps -> exists o, solver [RtoC x0; (x1, - eps)] [] theta lam false = Ok (Some o) /\ 0 < snd (refl_amp o)).
Proof. exact (phase_jump_lem x0 x1 theta lam). Qed.
Print Assumptions C68_phase_jump.

(** Concrete cases. *)
Example C47_case : let films := [(RtoC (3 / 2), 100); (RtoC 2, -5)] in
  (forall p, In p films -> transparent (fst p) /\ ~ grazing 1 (PI / 6) (fst p)) /\ transparent (RtoC (7 / 5)).
Proof.
  cbv zeta. split; [|split; cbn; lra].
  intros p [<-|[<-|[]]]; (split; [split; cbn; lra|]); cbn [fst]; apply not_grazing_real; try lra; generalize PI_RGT_0; lra.
Qed.
Example C47_grazing_case : grazing 2 (PI / 6) (RtoC 1) /\ passive (RtoC 1).
Proof. split; [|split; cbn; lra]. unfold grazing. rewrite sin_PI6, <- RtoC_mult. f_equal. field. Qed.
Example C66_case : passive (19 / 10, - 3) /\ ~ grazing 1 (PI / 6) (19 / 10, - 3).
Proof. split; [split; cbn; lra|]. apply not_grazing_metal; cbn; lra. Qed.
Example C67_case : medium_of 1 0 (2, - 3) (2, - 3) /\ 0 < fst (2, - 3).
Proof.
  split; [|cbn; lra]. split; [|left; cbn; lra]. unfold normal_index. rewrite sin_0.
  apply C_eq; unfold Cminus, Cplus, Copp, Cmult, RtoC; cbn [fst snd]; ring.
Qed.
Example C68_case : 0 < 1 /\ 1 < 2 * sin (PI / 4).
Proof.
  split; [lra|]. rewrite sin_PI4. assert (H := sqrt_lt_R0 2 ltac:(lra)). assert (Q := sqrt_sqrt 2 ltac:(lra)).
  apply Rmult_lt_reg_r with (sqrt 2); auto. replace (2 * (1 / sqrt 2) * sqrt 2) with 2 by (field; lra). nra.
Qed.
