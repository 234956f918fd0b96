(** Properties of coralign/conjugate/conjugate.py: C43, C44, C63, C64, C65, C92. *)
From Coq Require Import ZArith Bool List Reals Lra Lia.
From Flocq Require Import Core.
From Verif.Base Require Import Py Arr Vec Sums Lstsq.
From Verif.Model Require Import PadCrop Math Noll Fits Fresnel Dm Conjugate.
From Verif.Spec Require Import MathSpec ZernikeSpec DmSpec FitsSpec ConjugateSpec RefuseSpec.
From Verif.Proofs Require Import ZernP DmP ConjugateP ConjugateCmdP ConjugateAll ConjugateR ConjugateEx.
Import ListNotations.
Open Scope Z_scope.

(** C43. Reassigning the heights of dead actuators. *)
Theorem C43_reassign : forall n1 n2 tie1 tie2 h1 h2 r1 r2,
  nr h1 = n1 -> nc h1 = n1 -> nr h2 = n2 -> nc h2 = n2 ->
  reassign_dead n1 n2 tie1 tie2 h1 h2 = Ok (r1, r2) ->
  n1 = n2 /\ nr tie1 = n1 /\ nc tie1 = n1 /\ nr tie2 = n1 /\ nc tie2 = n1 /\
  nr r1 = n1 /\ nc r1 = n1 /\ nr r2 = n1 /\ nc r2 = n1 /\
  forall i j, in_arr h1 i j ->
    (dead tie1 i j -> at2 r1 i j = 0%R) /\ (dead tie2 i j -> at2 r2 i j = 0%R) /\
    (~ (dead tie1 i j /\ dead tie2 i j) -> (at2 r1 i j + at2 r2 i j = at2 h1 i j + at2 h2 i j)%R) /\
    (~ dead tie1 i j -> ~ dead tie2 i j -> at2 r1 i j = at2 h1 i j /\ at2 r2 i j = at2 h2 i j).
Proof. exact reassign_ok. Qed.
Print Assumptions C43_reassign.
Theorem C43_reassign_defined : forall n tie1 tie2 h1 h2,
  nr tie1 = n -> nc tie1 = n -> nr tie2 = n -> nc tie2 = n ->
  exists r, reassign_dead n n tie1 tie2 h1 h2 = Ok r.
Proof. exact reassign_def. Qed.
Print Assumptions C43_reassign_defined.
(** What is refused, in order: maps of dead actuators that are not n x n, DMs of different sizes unless one is 1 x 1. *)
Theorem C43_reassign_refused : forall n1 n2 tie1 tie2 h1 h2 e, reassign_dead n1 n2 tie1 tie2 h1 h2 = Err e <->
  refused [(nr tie1 = n1 /\ nc tie1 = n1, IndexError); (n1 = n2 \/ n1 = 1, ValueError);
           (nr tie2 = n2 /\ nc tie2 = n2, IndexError); (n2 = n1 \/ n2 = 1, ValueError)] e.
Proof. exact reassign_refused. Qed.
Print Assumptions C43_reassign_refused.
(** C43. The commands must be square and of the size of the DM. Exactly one other case is let through: a 1 x 1 map (or a DM of
    one actuator) is expanded by numpy to the size of the other. *)
Theorem C43_flatten_sizes : forall ops cmd1 cmd2 fcm useDMs useFCM high lam amp ph diam xo yo dm1 dm2 p o1 o2 of' coef,
  flatten ops cmd1 cmd2 fcm useDMs useFCM high lam amp ph diam xo yo dm1 dm2 p = Ok (o1, o2, of', coef) ->
  nr cmd1 = nc cmd1 /\ nr cmd2 = nc cmd2 /\ c_nact dm1 = c_nact dm2 /\
  (nr cmd1 = c_nact dm1 \/ nr cmd1 = 1 \/ c_nact dm1 = 1) /\ (nr cmd2 = c_nact dm2 \/ nr cmd2 = 1 \/ c_nact dm2 = 1) /\
  nr o1 = (if nr cmd1 =? 1 then c_nact dm1 else nr cmd1) /\ nc o1 = nr o1 /\
  nr o2 = (if nr cmd2 =? 1 then c_nact dm2 else nr cmd2) /\ nc o2 = nr o2.
Proof. exact flatten_sizes. Qed.
Print Assumptions C43_flatten_sizes.
Theorem C43_new_command : forall cmd delta n, nr cmd = nc cmd -> nr delta = n -> nc delta = n ->
  (forall e, new_command cmd delta = Err e <-> e = ValueError /\ nr cmd <> n /\ nr cmd <> 1 /\ n <> 1) /\
  (nr cmd = n -> exists o, new_command cmd delta = Ok o /\ nr o = n /\ nc o = n /\
     forall i j, in_arr o i j -> at2 o i j = (at2 cmd i j - at2 delta i j)%R) /\
  (nr cmd = 1 -> exists o, new_command cmd delta = Ok o /\ nr o = n /\ nc o = n /\
     forall i j, in_arr o i j -> at2 o i j = (at2 cmd 0 0 - at2 delta i j)%R).
Proof.
  intros cmd d n Q D1 D2. split; [exact (new_command_sizes cmd d n Q D1 D2)|]. split; intros E.
  - destruct (new_command_same cmd d) as (o & X & A1 & A2 & A3); [congruence..|]. exists o. split; auto. split; [congruence|]. split; [congruence|].
    intros i j I. apply A3. unfold in_arr in *. rewrite A1, A2 in I. exact I.
  - unfold new_command. rewrite <- Q, E, D1, D2. cbn [orb]. rewrite orb_true_r. cbn [orb andb guard bind Z.eqb Pos.eqb]. eexists. split; [reflexivity|].
    cbn [nr nc at2]. split; [reflexivity|]. split; [reflexivity|]. intros i j [Hi Hj]. cbn [nr nc] in Hi, Hj.
    assert (P : forall k, 0 <= k < n -> (if n =? 1 then 0 else k) = k) by (intros k Hk; destruct (Z.eqb_spec n 1); lia).
    rewrite !P by auto. reflexivity.
Qed.
Print Assumptions C43_new_command.
(** C43 for flatten as a whole: the command of a dead actuator does not change, and the height (gain times
    change of command) asked of the two DMs together is what the two surfaces need. *)
Theorem C43_flatten_dead : forall ops cmd1 cmd2 fcm useDMs useFCM high lam amp ph diam xo yo dm1 dm2 p o1 o2 of' coef,
  flatten ops cmd1 cmd2 fcm useDMs useFCM high lam amp ph diam xo yo dm1 dm2 p = Ok (o1, o2, of', coef) ->
  nr cmd1 = c_nact dm1 -> nr cmd2 = c_nact dm2 ->
  nr o1 = nr cmd1 /\ nc o1 = nc cmd1 /\ nr o2 = nr cmd2 /\ nc o2 = nc cmd2 /\
  c_nact dm1 = c_nact dm2 /\ nc cmd1 = nr cmd1 /\ nc cmd2 = nr cmd2 /\
  exists s h1 h2, flatten_front ops useDMs useFCM high amp ph diam xo yo dm1 dm2 p = Ok s /\
    conv_surf_to_dm_cmd (fo_conv ops) (s_surf1 s) dm1 = Ok h1 /\
    conv_surf_to_dm_cmd (fo_conv ops) (s_surf2 s) dm2 = Ok h2 /\
  forall i j, in_arr cmd1 i j -> at2 (c_gain dm1) i j <> 0%R -> at2 (c_gain dm2) i j <> 0%R ->
    (dead (c_tie dm1) i j -> at2 o1 i j = at2 cmd1 i j) /\
    (dead (c_tie dm2) i j -> at2 o2 i j = at2 cmd2 i j) /\
    (~ (dead (c_tie dm1) i j /\ dead (c_tie dm2) i j) ->
      ((at2 cmd1 i j - at2 o1 i j) * at2 (c_gain dm1) i j + (at2 cmd2 i j - at2 o2 i j) * at2 (c_gain dm2) i j
       = (at2 h1 i j + at2 h2 i j) * lam / (2 * PI)))%R /\
    (~ dead (c_tie dm1) i j -> ~ dead (c_tie dm2) i j ->
      (at2 cmd1 i j - at2 o1 i j) * at2 (c_gain dm1) i j = at2 h1 i j * lam / (2 * PI) /\
      (at2 cmd2 i j - at2 o2 i j) * at2 (c_gain dm2) i j = at2 h2 i j * lam / (2 * PI))%R.
Proof. exact flatten_dead. Qed.
Print Assumptions C43_flatten_dead.
(** A run of flatten for each setting of the flags, with a dead actuator on DM1. *)
Example C43_ex : dead tie_ex 0 1 /\ forall useDMs useFCM high, exists out,
  flatten flat_ref (afull 2 2 7%R) (afull 2 2 8%R) 10 useDMs useFCM high 1 amp_ex ph_ex 5 0 0
    (dm_ex 2 0 false tie_ex) (dm_ex 2 0 false (afull 2 2 0)) par_ex = Ok out.
Proof. split; [reflexivity|exact flatten_ex]. Qed.

(** C44. The three maps of gen_split_wfe are the Noll modes 1-3, 4 (only with the FCM) and the rest. *)
Theorem C44_split : forall maxNoll coef0 diam h w xo yo Zf, is_mode_fun (diam / 2) Zf -> (0 < diam)%R ->
  0 < h -> 0 < w -> Z.max h w <> 1000000 -> forall fcm : bool, (if fcm then 5 else 4) <= maxNoll ->
  exists z13 z4 z, gen_split_wfe fcm maxNoll coef0 diam h w xo yo = Ok (z13, z4, z) /\
  nr z13 = h /\ nc z13 = w /\ nr z4 = h /\ nc z4 = w /\ nr z = h /\ nc z = w /\
  forall r c, 0 <= r < h -> 0 <= c < w -> let x := px_x w xo c in let y := px_x h yo r in
    at2 z13 r c = band Zf coef0 1 3 x y /\
    at2 z4 r c = (if fcm then band Zf coef0 4 4 x y else 0%R) /\
    at2 z r c = band Zf coef0 (if fcm then 5 else 4) maxNoll x y.
Proof. exact split_ok. Qed.
Print Assumptions C44_split.
Theorem C44_split_defined : forall (fcm : bool) maxNoll cs diam h w xo yo, Z.max h w <> 1000000 ->
  (is_ok (gen_split_wfe fcm maxNoll cs diam h w xo yo) <->
   (if fcm then 5 else 4) <= maxNoll /\ (0 < diam)%R /\ 0 < h /\ 0 < w).
Proof. exact split_defined. Qed.
Print Assumptions C44_split_defined.
(** The documented domain of maxNoll is every positive integer; with the FCM, 1 to 3 raise IndexError. *)
Theorem C44_split_small_maxNoll : forall maxNoll cs diam h w xo yo, 0 < maxNoll < 4 -> (0 < diam)%R ->
  gen_split_wfe true maxNoll cs diam h w xo yo = Err IndexError.
Proof. exact split_fcm_small. Qed.
Print Assumptions C44_split_small_maxNoll.
(** C44. In flatten: the three maps add up to the combination of all modes, and the remainder is the
    measured phase minus it on the usable pixels, 0 elsewhere. *)
Theorem C44_flatten_modes : forall ops useDMs useFCM high amp ph diam xo yo dm1 dm2 p s Zf,
  flatten_front ops useDMs useFCM high amp ph diam xo yo dm1 dm2 p = Ok s -> wf amp -> wf ph ->
  let h := map_h dm1 dm2 in let w := map_w dm1 dm2 in
  Z.max h w <> 1000000 -> is_mode_fun (diam / 2) Zf ->
  nr (s_z s) = h /\ nc (s_z s) = w /\ nr (s_z4 s) = h /\ nc (s_z4 s) = w /\ nr (s_z1to3 s) = h /\ nc (s_z1to3 s) = w /\
  forall r c, 0 <= r < h -> 0 <= c < w -> let x := px_x w xo c in let y := px_x h yo r in
    at2 (s_z1to3 s) r c = band Zf (s_coef s) 1 3 x y /\
    at2 (s_z4 s) r c = (if useFCM then band Zf (s_coef s) 4 4 x y else 0%R) /\
    at2 (s_z s) r c = band Zf (s_coef s) (if useFCM then 5 else 4) (f_maxNoll p) x y /\
    (at2 (s_z1to3 s) r c + at2 (s_z4 s) r c + at2 (s_z s) r c = band Zf (s_coef s) 1 (f_maxNoll p) x y)%R /\
    at2 (s_above s) r c = (if at2 (s_usable s) r c
       then at2 (s_wfeIn s) r c - band Zf (s_coef s) 1 (f_maxNoll p) x y else 0)%R.
Proof. exact front_modes. Qed.
Print Assumptions C44_flatten_modes.
(** C44. The two DM phases add up to the wavefront to correct; the split fraction is in [0,1]. *)
Theorem C44_flatten_phases : forall ops useDMs useFCM high amp ph diam xo yo dm1 dm2 p s Zf,
  flatten_front ops useDMs useFCM high amp ph diam xo yo dm1 dm2 p = Ok s -> wf amp -> wf ph ->
  let h := map_h dm1 dm2 in let w := map_w dm1 dm2 in
  Z.max h w <> 1000000 -> is_mode_fun (diam / 2) Zf ->
  (useDMs = true -> nr (s_phase1 s) = h /\ nc (s_phase1 s) = w /\ nr (s_phase2 s) = h /\ nc (s_phase2 s) = w) /\
  (useDMs = true -> high = true -> exists alpha,
     alpha = split_fraction (fo_fmin ops) (s_z s) (s_above s) (s_usable s) /\
     (bounded_fmin (fo_fmin ops) -> (0 <= alpha <= 1)%R) /\
     forall r c, 0 <= r < h -> 0 <= c < w ->
       at2 (s_phase1 s) r c = (alpha * at2 (s_z s) r c + at2 (s_above s) r c)%R /\
       at2 (s_phase2 s) r c = ((1 - alpha) * at2 (s_z s) r c)%R) /\
  (useDMs = true -> high = false -> forall r c, 0 <= r < h -> 0 <= c < w ->
     at2 (s_phase1 s) r c = (at2 (s_z s) r c / 2)%R /\ at2 (s_phase2 s) r c = (at2 (s_z s) r c / 2)%R) /\
  (useDMs = false -> wf (s_phase1 s) /\ wf (s_phase2 s) /\
     forall r c, at2 (s_phase1 s) r c = 0%R /\ at2 (s_phase2 s) r c = 0%R).
Proof. exact front_phases. Qed.
Print Assumptions C44_flatten_phases.
(** C44. Exactly one fraction equalises the rms of the two DMs, and it is in (0,1]. *)
Theorem C44_balanced_fraction : forall use z a, some_usable use -> forall rz ra,
  rms_on use (at2 z) rz -> rms_on use (at2 a) ra -> (ra < rz)%R ->
  exists alpha, (0 < alpha <= 1)%R /\ equalises use z a alpha /\ forall b, equalises use z a b -> b = alpha.
Proof. exact balanced. Qed.
Print Assumptions C44_balanced_fraction.
(** The cost is the squared difference of the two rms values. *)
Theorem C44_cost : forall alpha z a use, nr z = nr use -> nc z = nc use -> nr a = nr use -> nc a = nc use ->
  some_usable use -> (0 <= alpha <= 1)%R ->
  exists r1 r2, phase_cost_function alpha z a use = Ok (Some ((r1 - r2) ^ 2)%R) /\
    rms_on use (fun i j => at2 a i j + alpha * at2 z i j)%R r1 /\
    rms_on use (fun i j => (1 - alpha) * at2 z i j)%R r2.
Proof. exact cost_ok. Qed.
Print Assumptions C44_cost.
Theorem C44_cost_errors : forall alpha z a use e, phase_cost_function alpha z a use = Err e ->
  e = ValueError /\ ((alpha < 0)%R \/ (1 < alpha)%R \/ nr z <> nr use \/ nc z <> nc use \/ nr a <> nr use \/ nc a <> nc use).
Proof. exact cost_errors. Qed.
Print Assumptions C44_cost_errors.
(** C44. With a minimiser that finds minima, flatten gives both DMs the same rms when the low orders
    dominate; otherwise all low orders go to DM2 and no other fraction gets closer to balance. *)
Theorem C44_flatten_balanced : forall ops useDMs useFCM high amp ph diam xo yo dm1 dm2 p s Zf,
  flatten_front ops useDMs useFCM high amp ph diam xo yo dm1 dm2 p = Ok s -> wf amp -> wf ph ->
  let h := map_h dm1 dm2 in let w := map_w dm1 dm2 in
  Z.max h w <> 1000000 -> is_mode_fun (diam / 2) Zf ->
  forall rz ra, exact_fmin (fo_fmin ops) -> is_lstsq_oracle (fo_lstsq ops) -> useDMs = true -> high = true ->
  rms_on (s_usable s) (at2 (s_z s)) rz -> rms_on (s_usable s) (at2 (s_above s)) ra ->
  ((ra < rz)%R -> exists r, rms_on (s_usable s) (at2 (s_phase1 s)) r /\ rms_on (s_usable s) (at2 (s_phase2 s)) r) /\
  ((rz <= ra)%R -> (forall r c, 0 <= r < h -> 0 <= c < w ->
       at2 (s_phase1 s) r c = at2 (s_above s) r c /\ at2 (s_phase2 s) r c = at2 (s_z s) r c) /\
     forall alpha r1 r2, (0 <= alpha <= 1)%R ->
       rms_on (s_usable s) (fun i j => at2 (s_above s) i j + alpha * at2 (s_z s) i j)%R r1 ->
       rms_on (s_usable s) (fun i j => (1 - alpha) * at2 (s_z s) i j)%R r2 -> ((ra - rz) ^ 2 <= (r1 - r2) ^ 2)%R).
Proof. exact front_balanced. Qed.
Print Assumptions C44_flatten_balanced.
Theorem C44_orthogonal : forall ops useDMs useFCM high amp ph diam xo yo dm1 dm2 p s Zf,
  flatten_front ops useDMs useFCM high amp ph diam xo yo dm1 dm2 p = Ok s -> wf amp -> wf ph ->
  Z.max (map_h dm1 dm2) (map_w dm1 dm2) <> 1000000 -> is_mode_fun (diam / 2) Zf ->
  is_lstsq_oracle (fo_lstsq ops) ->
  use_sum (s_usable s) (fun r c => at2 (s_above s) r c * at2 (s_z s) r c)%R = 0%R.
Proof. exact front_orthogonal. Qed.
Print Assumptions C44_orthogonal.
Example C44_ex : bounded_fmin (fo_fmin flat_ref) /\ exact_fmin (fo_fmin flat_ref) /\ is_lstsq_oracle (fo_lstsq flat_ref) /\
  is_mode_fun (5 / 2) (fun j => zern_xy j (5 / 2)) /\
  map_h (dm_ex 2 0 false tie_ex) (dm_ex 2 0 false (afull 2 2 0)) = 4 /\
  map_w (dm_ex 2 0 false tie_ex) (dm_ex 2 0 false (afull 2 2 0)) = 4 /\
  exists s, flatten_front flat_ref true true true amp_ex ph_ex 5 0 0
    (dm_ex 2 0 false tie_ex) (dm_ex 2 0 false (afull 2 2 0)) par_ex = Ok s.
Proof.
  split; [apply fmin_ref_ok|]. split; [apply fmin_ref_ok|]. split; [apply lstsq_ref_ok|].
  split; [apply mode_fun_ex; lra|]. split; [apply (map_ex 0 0)|]. split; [apply (map_ex 0 0)|].
  destruct (flatten_ex true true true) as [[[[o1 o2] f] c] E].
  apply flatten_inv0 in E as (s & _ & _ & _ & _ & _ & _ & E & _). eauto.
Qed.

(** C63. flatten with flagUseDMs = False leaves the DM commands alone. *)
Theorem C63_no_dms : forall ops cmd1 cmd2 fcm useFCM high lam amp ph diam xo yo dm1 dm2 p o1 o2 of' coef,
  flatten ops cmd1 cmd2 fcm false useFCM high lam amp ph diam xo yo dm1 dm2 p = Ok (o1, o2, of', coef) ->
  nr cmd1 = c_nact dm1 -> nr cmd2 = c_nact dm2 ->
  is_solver (co_solve (fo_conv ops)) -> keeps_zero (fo_conv ops) ->
  (forall dm A, dm = dm1 \/ dm = dm2 ->
     build_prefilter (co_spline2 (fo_conv ops)) (c_nact dm) (c_nact dm) (c_inf dm) (c_ppact_d dm) = Ok A ->
     nonsingular (sdim A) (sat A)) ->
  (forall i j, in_arr (c_gain dm1) i j -> at2 (c_gain dm1) i j <> 0 /\ at2 (c_gain dm2) i j <> 0)%R ->
  aeq o1 cmd1 /\ aeq o2 cmd2.
Proof. exact flatten_no_dms. Qed.
Print Assumptions C63_no_dms.
(** C63. Without the FCM its command does not change; with it, it moves by the fitted Z4 converted to steps,
    rounded to the nearest integer. *)
Theorem C63_fcm : forall ops cmd1 cmd2 fcm useDMs useFCM high lam amp ph diam xo yo dm1 dm2 p o1 o2 of' coef,
  flatten ops cmd1 cmd2 fcm useDMs useFCM high lam amp ph diam xo yo dm1 dm2 p = Ok (o1, o2, of', coef) ->
  (useFCM = false -> of' = fcm) /\
  (useFCM = true -> (f_focusPerStroke p * f_strokePerStep p <> 0)%R /\
    (Rabs (IZR of' - (IZR fcm + nth 3 coef 0 * lam / (2 * PI) / f_focusPerStroke p / f_strokePerStep p)) <= / 2)%R).
Proof. exact flatten_fcm. Qed.
Print Assumptions C63_fcm.
Theorem C63_fcm_zero_factor : forall fcm coef lam f s, (f * s = 0)%R ->
  exists e, fcm_command true fcm coef lam f s = Err e.
Proof. exact fcm_zero_factor. Qed.
Print Assumptions C63_fcm_zero_factor.
Example C63_ex : (exists out, flatten flat_ref (afull 2 2 7%R) (afull 2 2 8%R) 10 false true true 1 amp_ex ph_ex 5 0 0
    (dm_ex 2 0 false tie_ex) (dm_ex 2 0 false (afull 2 2 0)) par_ex = Ok out) /\
  is_solver (co_solve (fo_conv flat_ref)) /\ keeps_zero (fo_conv flat_ref) /\
  forall tie A, build_prefilter (co_spline2 (fo_conv flat_ref)) 2 2 (c_inf (dm_ex 2 0 false tie)) 1 = Ok A ->
    nonsingular (sdim A) (sat A).
Proof.
  split; [apply flatten_ex|]. split; [apply conv_ref_ok|]. split; [apply conv_ref_ok|].
  intros tie A. apply delta3_prefilter.
Qed.

(** C64. The surface asked of a DM is half its phase on the illuminated pixels; elsewhere it stays within
    the range of the illuminated values (extended to 0 by the smoothing). *)
Theorem C64_surface : forall ker high nIter n crop cx cy phase surf, wf phase ->
  desired_surface ker high nIter n crop cx cy phase = Ok surf ->
  exists ph0 lo hi, pad_crop phase [n; n] 0%R = Ok ph0 /\ nr surf = n /\ nc surf = n /\
    is_min_on crop ph0 lo /\ is_max_on crop ph0 hi /\
    (forall i j, in_arr surf i j -> at2 crop i j = true -> at2 surf i j = (at2 ph0 i j / 2)%R) /\
    (high = false -> forall i j, in_arr surf i j ->
       (at2 ph0 i j < lo -> at2 surf i j = lo / 2)%R /\ (hi < at2 ph0 i j -> at2 surf i j = hi / 2)%R /\
       (lo <= at2 ph0 i j <= hi -> at2 surf i j = at2 ph0 i j / 2)%R) /\
    ((forall wd, averaging (ker wd)) -> forall i j, in_arr surf i j ->
       (Rmin 0 lo / 2 <= at2 surf i j <= Rmax 0 hi / 2)%R).
Proof. exact surface_ok. Qed.
Print Assumptions C64_surface.
(** C64. With high orders, the surface is the one without them after nIterSmooth passes, each a smoothing by a box as wide as
    the larger pixel density rounds to, followed by resetting the usable pixels. *)
Theorem C64_passes : forall ker nIter n crop cx cy phase surf, wf phase ->
  desired_surface ker true nIter n crop cx cy phase = Ok surf ->
  exists half W S, desired_surface ker false nIter n crop cx cy phase = Ok half /\ rounds_half_even (Rmax cx cy) W /\
    S O = half /\ S (Z.to_nat nIter) = surf /\ (0 < nIter -> 0 < W) /\
    forall k, (k < Z.to_nat nIter)%nat -> smoothed_once ker W crop half (S k) (S (Datatypes.S k)).
Proof. exact surface_steps. Qed.
Print Assumptions C64_passes.
(** C64. In flatten: pixel (i,j) of a surface corresponds to the pixel at the same offset from the centre. *)
Theorem C64_flatten_surfaces : forall ops useDMs useFCM high amp ph diam xo yo dm1 dm2 p s Zf,
  flatten_front ops useDMs useFCM high amp ph diam xo yo dm1 dm2 p = Ok s -> wf amp -> wf ph ->
  let h := map_h dm1 dm2 in let w := map_w dm1 dm2 in
  Z.max h w <> 1000000 -> is_mode_fun (diam / 2) Zf -> let n := ceil_odd (f_arrayExtFac p * diam) in
  nr (s_surf1 s) = n /\ nc (s_surf1 s) = n /\ nr (s_surf2 s) = n /\ nc (s_surf2 s) = n /\
  (useDMs = true -> forall i j r c, 0 <= i < n -> 0 <= j < n -> r = i - n / 2 + h / 2 -> c = j - n / 2 + w / 2 ->
     0 <= r < h -> 0 <= c < w -> at2 (s_usable s) r c = true ->
     at2 (s_surf1 s) i j = (at2 (s_phase1 s) r c / 2)%R /\ at2 (s_surf2 s) i j = (at2 (s_phase2 s) r c / 2)%R).
Proof. exact front_surfaces. Qed.
Print Assumptions C64_flatten_surfaces.
Theorem C64_smooth : forall ker a wd s, 0 < nr a -> 0 < nc a -> smooth_surface ker a wd = Ok s ->
  (0 < wd)%R /\ aeq s (convolve_same a (ker wd)).
Proof. exact smooth_ok. Qed.
Print Assumptions C64_smooth.
Example C64_ex : (forall wd, averaging (ker_ref wd)) /\ exists surf,
  desired_surface ker_ref true 1 5 (Arr 5 5 (fun i j => i =? j)) 1 1 ph_ex = Ok surf.
Proof.
  split; [exact ker_ref_ok|]. apply desired_def; try lia; try reflexivity.
  - split; cbn; lia.
  - exists 2, 2. split; [split; cbn; lia|reflexivity].
  - intros _. rewrite Rmax_left by lra. rewrite (Znearest_imp _ 1 1); [lia|].
    rewrite Rminus_diag_eq, Rabs_R0 by auto. lra.
Qed.

(** C65. The command of conv_surf_to_dm_cmd has, at every actuator, the surface value at the pixel where the
    actuator is (column mirrored for a flipped DM). *)
Theorem C65_sample : forall ops surf dm h k, is_solver (co_solve ops) -> conv_surf_to_dm_cmd ops surf dm = Ok h ->
  (forall A, build_prefilter (co_spline2 ops) (c_nact dm) (c_nact dm) (c_inf dm) (c_ppact_d dm) = Ok A ->
     nonsingular (sdim A) (sat A)) ->
  resample_inf_func (co_spline2 ops) (c_inf dm) (c_ppact_d dm) 1 = Ok k ->
  nr k mod 2 = 1 -> nc k mod 2 = 1 -> point_symmetric k ->
  c_thact dm = 0%R -> no_rotation (co_rotate ops) -> grid_spline (co_bispline ops) ->
  forall r c i j, 0 <= r < c_nact dm -> 0 <= c < c_nact dm -> in_arr surf i j ->
   (IZR (i - nr surf / 2) = (IZR r - (IZR (c_nact dm) - 1) / 2) * c_ppact_cy dm + c_dy dm)%R ->
   (IZR (j - nc surf / 2) = (IZR c - (IZR (c_nact dm) - 1) / 2) * c_ppact_cx dm + c_dx dm)%R ->
   dm_surface k h r c = at2 surf i (if c_flipx dm then nc surf - 1 - j else j).
Proof. exact conv_sample. Qed.
Print Assumptions C65_sample.
Theorem C65_zero : forall ops surf dm h, is_solver (co_solve ops) -> keeps_zero ops ->
  (forall A, build_prefilter (co_spline2 ops) (c_nact dm) (c_nact dm) (c_inf dm) (c_ppact_d dm) = Ok A ->
     nonsingular (sdim A) (sat A)) ->
  zero_arr surf -> conv_surf_to_dm_cmd ops surf dm = Ok h -> zero_arr h.
Proof. exact conv_zero. Qed.
Print Assumptions C65_zero.
(** C65. conv_surf_to_dm_cmd inverts dmhtoph, for whole-pixel registrations without clocking, if the DM is
    not both flipped and shifted sideways. Missing: clocking and fractional pixels (interpolation is then not
    exact), and the flipped and shifted case, which is false. *)
Theorem C65_round_trip_partial : forall ops cops nrow ncol p sx sy dmin out dm, wf (c_inf dm) ->
  no_rotation (sp_rotate ops) -> whole_shift (sp_shift ops) -> interpolates ops ->
  no_rotation (co_rotate cops) -> grid_spline (co_bispline cops) -> kernel_spline (co_spline2 cops) ->
  is_solver (co_solve cops) ->
  c_ppact_cx dm = IZR p -> c_ppact_cy dm = IZR p -> c_ppact_d dm = IZR p ->
  c_dx dm = IZR sx -> c_dy dm = IZR sy -> c_thact dm = 0%R -> Z.Even ((c_nact dm - 1) * p) ->
  (forall A, build_prefilter (co_spline2 cops) (c_nact dm) (c_nact dm) (c_inf dm) (IZR p) = Ok A ->
     nonsingular (sdim A) (sat A)) ->
  point_symmetric (c_inf dm) -> spline_symmetric (co_spline2 cops) ->
  dmhtoph ops nrow ncol dmin (c_nact dm) (c_inf dm) p (IZR p) (IZR p) (IZR sx) (IZR sy) 0 (c_flipx dm) = Ok out ->
  2 * Z.abs sy < p + nr (c_inf dm) -> 2 * Z.abs sx < p + nr (c_inf dm) ->
  (c_nact dm - 1) * p + 2 * Z.abs sy < nrow -> (c_nact dm - 1) * p + 2 * Z.abs sx < ncol ->
  forall h, conv_surf_to_dm_cmd cops out dm = Ok h ->
  (c_flipx dm = true -> ncol mod 2 = 1 /\ sx = 0) -> aeq h dmin.
Proof. exact round_trip. Qed.
Print Assumptions C65_round_trip_partial.
(** C65. For a flipped DM shifted by one pixel the command comes back displaced by two actuators. *)
Theorem C65_flip_shift_refuted : exists ops cops dmin dm out h,
  no_rotation (sp_rotate ops) /\ whole_shift (sp_shift ops) /\ interpolates ops /\
  no_rotation (co_rotate cops) /\ grid_spline (co_bispline cops) /\ kernel_spline (co_spline2 cops) /\
  is_solver (co_solve cops) /\ point_symmetric (c_inf dm) /\
  c_flipx dm = true /\ c_dx dm = 1%R /\ c_dy dm = 0%R /\ c_thact dm = 0%R /\
  dmhtoph ops 7 7 dmin (c_nact dm) (c_inf dm) 1 (c_ppact_cx dm) (c_ppact_cy dm) (c_dx dm) (c_dy dm) (c_thact dm) (c_flipx dm) = Ok out /\
  conv_surf_to_dm_cmd cops out dm = Ok h /\ ~ aeq h dmin.
Proof.
  destruct flip_shift_wrong as (out & h & E1 & E2 & V1 & V2).
  destruct conv_ref_ok as (C1 & C2 & C3 & C4 & C5 & _). destruct scipy_ref_ok as (S1 & S2 & S3 & _).
  exists scipy_ref, conv_ref, poke5, (dm_ex 5 1 true (afull 5 5 0)), out, h.
  do 7 (split; [assumption|]). split; [apply delta3_sym|]. do 4 (split; [reflexivity|]).
  split; [exact E1|]. split; [exact E2|]. intros (A1 & A2 & A3).
  pose proof (conv_inv _ _ _ _ E2) as (_ & _ & _ & _ & _ & _ & N1 & N2 & _). cbn in N1, N2.
  rewrite A3, V2 in V1; [lra|]. unfold in_arr. lia.
Qed.
Print Assumptions C65_flip_shift_refuted.
Example C65_ex : exists out h, dmhtoph scipy_ref 7 7 poke5 5 delta3 1 1 1 1 0 0 false = Ok out /\
  conv_surf_to_dm_cmd conv_ref out (dm_ex 5 1 false (afull 5 5 0)) = Ok h /\ aeq h poke5.
Proof.
  destruct (poke5_shown false) as [out E]. exists out.
  destruct conv_ref_ok as (C1 & C2 & C3 & C4 & C5 & C6 & C7). destruct scipy_ref_ok as (S1 & S2 & S3 & S4).
  destruct delta3_sym as [D1 D2].
  destruct (surface_size _ _ _ _ _ _ _ _ _ _ _ _ _ _ S4 D2 E) as [O1 O2].
  destruct (conv_def conv_ref out (dm_ex 5 1 false (afull 5 5 0))) as [h H]; cbn; try lra; try lia; auto.
  exists h. do 2 (split; [auto|]).
  assert (Ev : Z.Even ((5 - 1) * 1)) by (exists 2; reflexivity).
  apply (C65_round_trip_partial scipy_ref conv_ref 7 7 1 1 0 poke5 out (dm_ex 5 1 false (afull 5 5 0)));
    try assumption; try reflexivity.
  - intros A. apply delta3_prefilter.
  - discriminate.
Qed.

(** C92. flatten from end to end. Wherever an actuator of each DM lies over the same illuminated pixel of the
    pupil, the change of the two mirror surfaces, doubled by reflection, is the wavefront to be removed at that
    pixel. *)
Theorem C92_cancels : forall ops cmd1 cmd2 fcm useFCM high lam amp ph diam xo yo dm1 dm2 p o1 o2 of' coef
    ampIn use Zf k1 k2,
  flatten ops cmd1 cmd2 fcm true useFCM high lam amp ph diam xo yo dm1 dm2 p = Ok (o1, o2, of', coef) ->
  nr cmd1 = c_nact dm1 -> nr cmd2 = c_nact dm2 ->
  wf amp -> wf ph -> Z.max (map_h dm1 dm2) (map_w dm1 dm2) <> 1000000 -> is_mode_fun (diam / 2) Zf ->
  pad_crop amp [map_h dm1 dm2; map_w dm1 dm2] 0%R = Ok ampIn -> ampthresh ampIn (f_nBin p) = Ok use ->
  is_solver (co_solve (fo_conv ops)) -> no_rotation (co_rotate (fo_conv ops)) -> grid_spline (co_bispline (fo_conv ops)) ->
  regular_dm (fo_conv ops) dm1 k1 -> regular_dm (fo_conv ops) dm2 k2 ->
  (forall i j, in_arr cmd1 i j -> ~ dead (c_tie dm1) i j /\ ~ dead (c_tie dm2) i j) ->
  forall r c r' c' u v,
   0 <= r < c_nact dm1 -> 0 <= c < c_nact dm1 -> 0 <= r' < c_nact dm2 -> 0 <= c' < c_nact dm2 ->
   actuator_at dm1 r c u v -> actuator_at dm2 r' c' u v ->
   Z.abs u <= ceil_odd (f_arrayExtFac p * diam) / 2 -> Z.abs v <= ceil_odd (f_arrayExtFac p * diam) / 2 ->
   in_arr use (u + nr use / 2) (v + nc use / 2) -> at2 use (u + nr use / 2) (v + nc use / 2) = true ->
   (2 * dm_surface k1 (lowered lam (c_gain dm1) cmd1 o1) r c + 2 * dm_surface k2 (lowered lam (c_gain dm2) cmd2 o2) r' c'
    = to_remove useFCM high (f_maxNoll p) Zf coef ph xo yo u v)%R.
Proof. exact flatten_cancels. Qed.
Print Assumptions C92_cancels.
(** C92. Two mirrors with the same response: dead actuators change nothing, as long as no actuator is dead on
    both. *)
Theorem C92_cancels_with_dead : forall ops cmd1 cmd2 fcm useFCM high lam amp ph diam xo yo dm1 dm2 p o1 o2 of' coef
    ampIn use Zf k1 k2,
  flatten ops cmd1 cmd2 fcm true useFCM high lam amp ph diam xo yo dm1 dm2 p = Ok (o1, o2, of', coef) ->
  nr cmd1 = c_nact dm1 -> nr cmd2 = c_nact dm2 ->
  wf amp -> wf ph -> Z.max (map_h dm1 dm2) (map_w dm1 dm2) <> 1000000 -> is_mode_fun (diam / 2) Zf ->
  pad_crop amp [map_h dm1 dm2; map_w dm1 dm2] 0%R = Ok ampIn -> ampthresh ampIn (f_nBin p) = Ok use ->
  is_solver (co_solve (fo_conv ops)) -> no_rotation (co_rotate (fo_conv ops)) -> grid_spline (co_bispline (fo_conv ops)) ->
  regular_dm (fo_conv ops) dm1 k1 -> regular_dm (fo_conv ops) dm2 k2 ->
  k1 = k2 -> (forall i j, in_arr cmd1 i j -> ~ (dead (c_tie dm1) i j /\ dead (c_tie dm2) i j)) ->
  forall r c u v,
   0 <= r < c_nact dm1 -> 0 <= c < c_nact dm1 -> 0 <= r < c_nact dm2 -> 0 <= c < c_nact dm2 ->
   actuator_at dm1 r c u v -> actuator_at dm2 r c u v ->
   Z.abs u <= ceil_odd (f_arrayExtFac p * diam) / 2 -> Z.abs v <= ceil_odd (f_arrayExtFac p * diam) / 2 ->
   in_arr use (u + nr use / 2) (v + nc use / 2) -> at2 use (u + nr use / 2) (v + nc use / 2) = true ->
   (2 * dm_surface k1 (lowered lam (c_gain dm1) cmd1 o1) r c + 2 * dm_surface k2 (lowered lam (c_gain dm2) cmd2 o2) r c
    = to_remove useFCM high (f_maxNoll p) Zf coef ph xo yo u v)%R.
Proof. exact flatten_cancels_shared. Qed.
Print Assumptions C92_cancels_with_dead.
Lemma regular_ex t : regular_dm (fo_conv flat_ref) (dm_at (1 / 2) (1 / 2) t) delta3.
Proof.
  destruct delta3_sym as [S _]. unfold regular_dm. cbn [c_thact c_flipx c_inf c_ppact_d c_gain dm_at c_nact].
  split; [reflexivity|]. split; [discriminate|]. split; [apply delta3_res|]. do 2 (split; [reflexivity|]).
  split; [exact S|]. split; [intros A; apply delta3_prefilter|]. intros i j _. cbn. lra.
Qed.
Example C92_ex : forall useFCM high, let dm1 := dm_at (1 / 2) (1 / 2) tie_ex in let dm2 := dm_at (1 / 2) (1 / 2) (afull 2 2 0) in
  exists o1 o2 f coef ampIn use Zf,
  flatten flat_ref (afull 2 2 7%R) (afull 2 2 8%R) 10 true useFCM high 1 amp_ex ph_ex 5 0 0 dm1 dm2 par_ex = Ok (o1, o2, f, coef) /\
  is_mode_fun (5 / 2) Zf /\
  pad_crop amp_ex [map_h dm1 dm2; map_w dm1 dm2] 0%R = Ok ampIn /\ ampthresh ampIn (f_nBin par_ex) = Ok use /\
  is_solver (co_solve (fo_conv flat_ref)) /\ no_rotation (co_rotate (fo_conv flat_ref)) /\
  grid_spline (co_bispline (fo_conv flat_ref)) /\ regular_dm (fo_conv flat_ref) dm1 delta3 /\
  regular_dm (fo_conv flat_ref) dm2 delta3 /\ dead (c_tie dm1) 0 1 /\
  (forall i j, in_arr (afull 2 2 7%R) i j -> ~ (dead (c_tie dm1) i j /\ dead (c_tie dm2) i j)) /\
  (forall r, r = 0 \/ r = 1 -> actuator_at dm1 r r r r /\ actuator_at dm2 r r r r /\
     at2 use (r + nr use / 2) (r + nc use / 2) = true /\
     (2 * dm_surface delta3 (lowered 1 (c_gain dm1) (afull 2 2 7%R) o1) r r
      + 2 * dm_surface delta3 (lowered 1 (c_gain dm2) (afull 2 2 8%R) o2) r r
      = to_remove useFCM high 5 Zf coef ph_ex 0 0 r r)%R).
Proof.
  intros useFCM high dm1 dm2.
  destruct (flatten_at true useFCM high (1 / 2) (1 / 2) tie_ex (afull 2 2 0)) as ([[[o1 o2] f] coef] & ai & use & E & EA & EU & N1 & N2 & U2 & U3);
    try reflexivity.
  destruct (map_ex (1 / 2) (1 / 2) tie_ex (afull 2 2 0)) as [Mh Mw]. fold dm1 dm2 in E, Mh, Mw.
  destruct conv_ref_ok as (C1 & C2 & C3 & C4 & C5 & _).
  assert (HZ : is_mode_fun (5 / 2) (fun j => zern_xy j (5 / 2))) by (apply mode_fun_ex; lra).
  set (Zf := fun j => zern_xy j (5 / 2)) in *.
  exists o1, o2, f, coef, ai, use, Zf. rewrite Mh, Mw.
  assert (D : forall i j, in_arr (afull 2 2 7%R) i j -> ~ (dead (c_tie dm1) i j /\ dead (c_tie dm2) i j)).
  { intros i j _ [_ D]. discriminate D. }
  assert (A : forall t r, actuator_at (dm_at (1 / 2) (1 / 2) t) r r r r).
  { intros t r. unfold actuator_at. cbn. split; field. }
  do 9 (split; [solve [auto|exact (regular_ex _)]|]). split; [reflexivity|]. split; [exact D|].
  intros r Hr. assert (U : at2 use (r + nr use / 2) (r + nc use / 2) = true).
  { rewrite N1, N2. destruct Hr as [->| ->]; cbn; auto. }
  do 2 (split; [apply A|]). split; [exact U|].
  assert (O : ceil_odd (1 * 5) = 5) by (unfold ceil_odd; rewrite Rmult_1_l, Zceil_IZR; reflexivity).
  apply (C92_cancels_with_dead flat_ref (afull 2 2 7%R) (afull 2 2 8%R) 10 useFCM high 1 amp_ex ph_ex 5 0 0 dm1 dm2 par_ex o1 o2 f coef
    ai use Zf delta3 delta3 E); rewrite ?Mh, ?Mw; auto; try (split; cbn; lia); try lia; try (exact (regular_ex _)); try apply A;
    try (cbn [f_arrayExtFac par_ex]; rewrite O; cbn; lia); try (cbn; lia).
Qed.
