(** Model in binary64 of the trial grids of the one-dimensional searches. *)
From Coq Require Import ZArith Bool.
From Flocq Require Import Core BinarySingleNaN.
From Verif.Base Require Import F64.
From Verif.Model Require Import ShapesF.
Open Scope Z_scope.

(** occastro.py:98-105 and 236-238, entry i: np.arange(nSteps)*stepSize - (nSteps-1)/2*stepSize + estimate, evaluated from
    left to right. (nSteps-1)/2 is a division of Python integers. *)
Definition steps_f (nSteps : Z) (stepSize est : f64) (i : Z) : f64 :=
  fadd (fsub (fmul (fofZ i) stepSize) (fmul (fdiv (fofZ (nSteps - 1)) (fofZ 2)) stepSize)) est.
(** pupil/util.py:84, dmreg.py:240-241, 286, entry i: np.linspace(-limit, limit, n). *)
Definition range_f (n : Z) (limit : f64) (i : Z) : f64 := linspace_f (fopp limit) limit n i.
(** maskfit.py:583 (estimate magEst), entry i: magEst + magShrinkFac*np.linspace(-deltaMag, deltaMag, nMag). *)
Definition shrunk_f (n : Z) (est shrink limit : f64) (i : Z) : f64 := fadd est (fmul shrink (range_f n limit i)).
