(** Parsed YAML values and coralign/util/loadyaml.py. PyYAML and the file system are outside the model: what
    open() and yaml.safe_load() do on a path is an arbitrary function. *)
From Coq Require Import ZArith Bool List String Reals.
From Verif.Base Require Import Py.
Import ListNotations.
Open Scope string_scope.
Open Scope Z_scope.

(** Values yaml.safe_load returns, as far as the code looks at them. Floats are exact reals: .nan and .inf are
    left out. A dict is the list of its items in insertion order. *)
Inductive yval :=
| YNone
| YBool (b : bool)
| YInt (z : Z)
| YReal (r : R)
| YStr (s : string)
| YList (l : list yval)
| YDict (d : list (string * yval)).

Fixpoint assoc (k : string) (d : list (string * yval)) : option yval :=
  match d with
  | [] => None
  | (k', v) :: d' => if String.eqb k k' then Some v else assoc k d'
  end.
(** v[k] for a string k: KeyError for a dict without k; any other YAML type raises TypeError. *)
Definition item (v : yval) (k : string) : res yval :=
  match v with
  | YDict d => match assoc k d with Some x => Ok x | None => Err KeyError end
  | _ => Err TypeError
  end.
(** v.items(): AttributeError for anything but a dict. *)
Definition items (v : yval) : res (list (string * yval)) :=
  match v with YDict d => Ok d | _ => Err AttributeError end.

(** Exception classes that can reach the handlers, with their base classes. *)
Inductive pycls :=
| CException | COSError | CFileNotFoundError | CIsADirectoryError | CPermissionError
| CYAMLError | CMarkedYAMLError | CScannerError | CParserError | CComposerError | CConstructorError | CReaderError
| CValueError | CUnicodeError | CUnicodeDecodeError | CTypeError | CRecursionError | CMemoryError.
Definition base_class (c : pycls) : option pycls :=
  match c with
  | CException => None
  | CFileNotFoundError | CIsADirectoryError | CPermissionError => Some COSError
  | CScannerError | CParserError | CComposerError | CConstructorError => Some CMarkedYAMLError
  | CMarkedYAMLError | CReaderError => Some CYAMLError
  | CUnicodeDecodeError => Some CUnicodeError
  | CUnicodeError => Some CValueError
  | COSError | CYAMLError | CValueError | CTypeError | CRecursionError | CMemoryError => Some CException
  end.
Definition pycls_eqb (a b : pycls) : bool :=
  match a, b with
  | CException, CException | COSError, COSError | CFileNotFoundError, CFileNotFoundError
  | CIsADirectoryError, CIsADirectoryError | CPermissionError, CPermissionError | CYAMLError, CYAMLError
  | CMarkedYAMLError, CMarkedYAMLError | CScannerError, CScannerError | CParserError, CParserError
  | CComposerError, CComposerError | CConstructorError, CConstructorError | CReaderError, CReaderError
  | CValueError, CValueError | CUnicodeError, CUnicodeError | CUnicodeDecodeError, CUnicodeDecodeError
  | CTypeError, CTypeError | CRecursionError, CRecursionError | CMemoryError, CMemoryError => true
  | _, _ => false
  end.
(** An except clause matches an exception whose class or one of whose bases is the named class (the hierarchy
    above is four levels deep). *)
Fixpoint isa_fuel (n : nat) (c target : pycls) : bool :=
  pycls_eqb c target ||
  match n with
  | O => false
  | S n' => match base_class c with Some b => isa_fuel n' b target | None => false end
  end.
Definition isa (c target : pycls) : bool := isa_fuel 4 c target.

(** Result of a call that may raise an instance of a class. *)
Inductive outcome (A : Type) := Returns (a : A) | Raises (c : pycls).
Arguments Returns {A} a.
Arguments Raises {A} c.

(** loadyaml.py:8-41. [open_] opens a path; [safe_load] reads and parses the open file. [E] are the exceptions the
    caller can see: the class passed as custom_exception, or the original one. *)
Inductive seen (E : Type) := CustomException (e : E) | Original (c : pycls).
Arguments CustomException {E} e.
Arguments Original {E} c.
Section Load.
  Context {path file E : Type}.
  Definition loadyaml (open_ : path -> outcome file) (safe_load : file -> outcome yval) (p : path) (custom : E)
      : yval + seen E :=
    let body :=                                                             (* 28-31 *)
      match open_ p with
      | Raises c => Raises c
      | Returns f => safe_load f
      end in
    match body with
    | Returns v => inl v                                                    (* 41 *)
    | Raises c =>
        if isa c COSError then inr (CustomException custom)                 (* 33: IOError is OSError *)
        else if isa c CYAMLError then inr (CustomException custom)          (* 36 *)
        else if isa c CUnicodeDecodeError then inr (CustomException custom) (* 38 *)
        else inr (Original c)
    end.
End Load.
