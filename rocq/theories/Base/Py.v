(** Exceptions as values, shared by all models. *)
From Coq Require Import String.

(** Python exception classes that the modelled code raises or lets escape.
    [Custom s] is an exception class passed in by the caller or defined by coralign
    (QuadraticException, PlateSolvException, ...). *)
Inductive exn :=
| TypeError | ValueError | IndexError | ZeroDivisionError | UnboundLocalError
| KeyError | AttributeError | LinAlgError | OSError | NotImplementedError
| Custom (name : string).

Inductive res (A : Type) :=
| Ok (a : A)
| Err (e : exn).
Arguments Ok {A} a.
Arguments Err {A} e.

Definition bind {A B} (m : res A) (k : A -> res B) : res B :=
  match m with Ok a => k a | Err e => Err e end.

Notation "'do' x <- m ; k" := (bind m (fun x => k))
  (at level 200, x name, m at level 100, k at level 200, right associativity).

(** [guard b e] continues when [b] holds and raises [e] otherwise. *)
Definition guard (b : bool) (e : exn) : res unit := if b then Ok tt else Err e.
Notation "'check' b 'else' e ; k" := (bind (guard b e) (fun _ => k))
  (at level 200, b at level 100, e at level 100, k at level 200, right associativity).

Definition is_ok {A} (r : res A) : Prop := exists a, r = Ok a.

(** Unfolding a chain of checks. *)
Lemma guard_ok {A} b e (m : res A) v : bind (guard b e) (fun _ => m) = Ok v -> b = true /\ m = Ok v.
Proof. destruct b; cbn; [auto|discriminate]. Qed.
Lemma guard_true {A} b e (m : res A) : b = true -> bind (guard b e) (fun _ => m) = m.
Proof. intros ->. reflexivity. Qed.
Lemma guard_err {A} b e (m : res A) v : bind (guard b e) (fun _ => m) = Err v ->
  (b = false /\ v = e) \/ (b = true /\ m = Err v).
Proof. destruct b; cbn; [auto|intros [= ->]; auto]. Qed.

