(** Vocabulary for thin-film statements: media, stacks, outputs. *)
From Coq Require Import ZArith Bool List Reals.
From Coquelicot Require Import Complex.
Import ListNotations.
Open Scope R_scope.

(** A medium is transparent when its refractive index is a positive real number. *)
Definition transparent (n : C) : Prop := 0 < fst n /\ snd n = 0.
(** A medium is passive (does not amplify) when n = a - i b with a > 0, b >= 0. *)
Definition passive (n : C) : Prop := 0 < fst n /\ snd n <= 0.
(** Light coming from a medium of index [x0] at angle [theta] travels exactly parallel to the boundaries inside [n]. *)
Definition grazing (x0 theta : R) (n : C) : Prop := (n * n)%C = RtoC ((x0 * sin theta) ^ 2).

(** A stack: incident medium of real index [x0]; films with index and thickness, in order; final medium. *)
Definition stack_n (x0 : R) (films : list (C * R)) (final : C) : list C := RtoC x0 :: map fst films ++ [final].
Definition stack_d (films : list (C * R)) : list R := map snd films.

(** Outputs [reflectance, transmittance, reflection amplitude, transmission amplitude]; amplitude None is NaN. *)
Definition outputs := (R * R * C * option C)%type.
Definition reflectance (o : outputs) : R := fst (fst (fst o)).
Definition transmittance (o : outputs) : R := snd (fst (fst o)).
Definition refl_amp (o : outputs) : C := snd (fst o).
Definition trans_amp (o : outputs) : option C := snd o.

(** Wave number along the normal, up to the factor 2 PI / lam: sqrt(n^2 - (x0 sin theta)^2), any branch. *)
Definition normal_index (x0 theta : R) (n q : C) : Prop := (q * q)%C = (n * n - RtoC ((x0 * sin theta) ^ 2))%C.

(** Airy's recursion, written independently of transfer matrices. A medium is (index n, normal index q, thickness d), with
    q^2 = n^2 - (x0 sin theta)^2 on the branch Re q > 0, or Re q = 0 and Im q >= 0. *)
Definition on_branch (q : C) : Prop := 0 < fst q \/ (fst q = 0 /\ 0 <= snd q).
Definition medium := (C * C * R)%type.
Definition m_n (m : medium) : C := fst (fst m).
Definition m_q (m : medium) : C := snd (fst m).
Definition m_d (m : medium) : R := snd m.
Definition admittance (tm : bool) (m : medium) : C := (if tm then m_q m / (m_n m * m_n m) else m_q m)%C.
Definition fresnel_r (a b : C) : C := ((a - b) / (a + b))%C.
Definition fresnel_t (a b : C) : C := (RtoC 2 * a / (a + b))%C.
(** exp(- i 2 PI q d / lam): one pass through the film. *)
Definition pass (lam : R) (m : medium) : C :=
  let z := (RtoC (2 * PI / lam * m_d m) * m_q m)%C in
  (exp (snd z) * cos (fst z), - (exp (snd z) * sin (fst z))).
(** (r, t) of everything behind medium [a], seen from inside [a]. *)
Fixpoint airy (tm : bool) (lam : R) (a : medium) (rest : list medium) : C * C :=
  match rest with
  | [] => (RtoC 0, RtoC 1)
  | b :: rest' =>
      let r1 := fresnel_r (admittance tm a) (admittance tm b) in
      let t1 := fresnel_t (admittance tm a) (admittance tm b) in
      let rb := (fst (airy tm lam b rest') * (pass lam b * pass lam b))%C in
      let tb := (snd (airy tm lam b rest') * pass lam b)%C in
      ((r1 + rb) / (1 + r1 * rb), t1 * tb / (1 + r1 * rb))%C
  end.
Definition medium_of (x0 theta : R) (n q : C) : Prop := normal_index x0 theta n q /\ on_branch q.
