(** Exceptions as values, the result monad, and small list/string helpers. *)
From Coq Require Import String List ZArith Bool Ascii Lia.
From Coq Require Import DecimalString.
Import ListNotations.
Open Scope string_scope.
Open Scope list_scope.

(** Python exceptions that the modelled code raises or catches.
    serde/compat.py:92-111 (SerdeError, UserError, SerdeSkip) plus the builtin ones.
    Messages of SerdeError are kept only as far as properties mention them. *)
Inductive exn : Type :=
| XSerde (m : msg)            (* serde.SerdeError *)
| XUser (e : exn)             (* serde.compat.UserError, carries .inner *)
| XSkip                       (* serde.SerdeSkip *)
| XKey                        (* KeyError *)
| XType                       (* TypeError *)
| XValue                      (* ValueError *)
| XIndex                      (* IndexError *)
| XAttr                       (* AttributeError *)
| XName                       (* NameError *)
| XOverflow                   (* OverflowError *)
| XSyntax                     (* SyntaxError from exec of generated code *)
| XRecursion                  (* RecursionError *)
| XExc                        (* plain Exception, e.g. serde.core.ensure *)
| XOther (name : string)      (* any other exception class of user code *)
with msg : Type :=
| MMissing (field cls : string)         (* de.py:1401-1403 *)
| MUnknown (keys : list string)         (* de.py:1372-1374, the known fields *)
| MUnionSe | MUnionDe | MLiteral        (* se.py:756, de.py:1486, de.py:1498 *)
| MCoerceNone (cls field : string)      (* core.py:1173 *)
| MCoerce (cls field : string)          (* core.py:1181 *)
| MViolation                            (* beartype violation, se.py:246 / de.py:293 *)
| MUnsupported                          (* "Unsupported type", se.py:986, de.py:995 *)
| MNumber                               (* json.py:66-69, yaml.py:44-52 *)
| MText (s : string)
| MWrap (e : exn).                      (* SerdeError(e) in to_obj / from_obj *)

(** Outcome of running Python code.  [NoFuel] is not a Python outcome: the model ran out of
    fuel.  It is never counted as success nor as an exception. *)
Inductive res (A : Type) : Type :=
| Ok (a : A)
| Raise (e : exn)
| NoFuel.
Arguments Ok {A} a.
Arguments Raise {A} e.
Arguments NoFuel {A}.

Definition bind {A B} (m : res A) (k : A -> res B) : res B :=
  match m with
  | Ok a => k a
  | Raise e => Raise e
  | NoFuel => NoFuel
  end.

Notation "x <- m ;; k" := (bind m (fun x => k)) (at level 61, m at next level, right associativity).
Notation "' p <- m ;; k" := (bind m (fun p => k)) (at level 61, p pattern, m at next level, right associativity).

(** try: m except <any Exception> as e: h e *)
Definition catch {A} (m : res A) (h : exn -> res A) : res A :=
  match m with
  | Raise e => h e
  | other => other
  end.

Section MapM.
  Context {A B : Type}.
  Variable f : A -> res B.
  (** [[f(x) for x in l]]: left to right, stops at the first exception. *)
  Fixpoint mapM (l : list A) : res (list B) :=
    match l with
    | [] => Ok []
    | a :: r => b <- f a ;; bs <- mapM r ;; Ok (b :: bs)
    end.
End MapM.

Section FoldM.
  Context {A S : Type}.
  Variable f : S -> A -> res S.
  (** A for loop over [l] with state. *)
  Fixpoint foldM (l : list A) (s : S) : res S :=
    match l with
    | [] => Ok s
    | a :: r => s' <- f s a ;; foldM r s'
    end.
End FoldM.

Definition of_option {A} (e : exn) (o : option A) : res A :=
  match o with Some a => Ok a | None => Raise e end.

(** Association lists keyed by strings: first match. *)
Fixpoint slookup {A} (k : string) (l : list (string * A)) : option A :=
  match l with
  | [] => None
  | (k', a) :: r => if String.eqb k' k then Some a else slookup k r
  end.

Definition smem (k : string) (l : list string) : bool := existsb (String.eqb k) l.

(** str(int) of Python *)
Definition z_str (z : Z) : string := NilZero.string_of_int (Z.to_int z).
Definition n_str (n : nat) : string := z_str (Z.of_nat n).

Fixpoint sconcat (sep : string) (l : list string) : string :=
  match l with
  | [] => ""
  | [x] => x
  | x :: r => (x ++ sep ++ sconcat sep r)%string
  end.

Fixpoint nth_opt {A} (l : list A) (n : nat) : option A :=
  match l, n with
  | [], _ => None
  | a :: _, O => Some a
  | _ :: r, S n => nth_opt r n
  end.

Fixpoint mapi_from {A B} (f : nat -> A -> B) (n : nat) (l : list A) : list B :=
  match l with
  | [] => []
  | a :: r => f n a :: mapi_from f (S n) r
  end.
Definition mapi {A B} (f : nat -> A -> B) (l : list A) : list B := mapi_from f 0 l.

Fixpoint mapMi_from {A B} (f : nat -> A -> res B) (n : nat) (l : list A) : res (list B) :=
  match l with
  | [] => Ok []
  | a :: r => b <- f n a ;; bs <- mapMi_from f (S n) r ;; Ok (b :: bs)
  end.

(** A string that can be put between double quotes in generated source without changing the
    program: no quote, backslash or newline.  The templates do not escape names
    (e.g. se.py:883, de.py:849). *)
Definition lit_char_ok (a : ascii) : bool :=
  negb (Ascii.eqb a """" || Ascii.eqb a "\" || Ascii.eqb a "010").
Fixpoint lit_ok (s : string) : bool :=
  match s with
  | EmptyString => true
  | String a r => lit_char_ok a && lit_ok r
  end.
(** Rendering a string literal.  A bad string makes [exec] fail or changes the meaning of the
    code; the model reports both as SyntaxError. *)
Definition lit (s : string) : res string := if lit_ok s then Ok s else Raise XSyntax.
