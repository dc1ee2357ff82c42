(** Types as they appear in annotations. *)
From Coq Require Import String List ZArith Bool Ascii.
From Verif Require Import Base PyVal.
Import ListNotations.
Open Scope string_scope.
Open Scope list_scope.

Inductive prim := PInt | PFloat | PBool | PStr.
(** list, collections.abc.Sequence, collections.abc.MutableSequence (compat.py:598-618) *)
Inductive listkind := LList | LSequence | LMutSeq.
(** set, frozenset, collections.abc.Set, MutableSet (compat.py:688-711) *)
Inductive setk := SkSet | SkFrozen | SkAbs | SkMut.
(** dict, defaultdict, Mapping, MutableMapping (compat.py:752-777) *)
Inductive dictk := DkDict | DkDefault | DkMapping | DkMutMapping.
(** Unsubscripted container classes *)
Inductive bare := BList (k : listkind) | BSet (k : setk) | BDict (k : dictk) | BTuple | BDeque | BCounter.

(** Arguments of typing.Literal.  bytes literals are not modelled. *)
Inductive litval := LInt (z : Z) | LStr (s : string) | LBool (b : bool) | LNone | LEnum (c m : string).

Definition lit_val (l : litval) : pyval :=
  match l with
  | LInt z => VInt z | LStr s => VStr s | LBool b => VBool b | LNone => VNone | LEnum c m => VEnum c m
  end.

(** Annotations.  [Optional[t]] is [TUnion [t; TNone]].  Classes, enums and other classes are named
    by a unique identifier; their __name__ is found in the program.  numpy types, typing.Annotated
    and bare typing.Optional / typing.Union are not modelled. *)
Inductive pytype : Type :=
| TPrim (p : prim)
| TPrimSub (n : string) (p : prim)      (* class n(p): user subclass of a primitive *)
| TNewType (n : string) (p : prim)      (* typing.NewType(n, p) *)
| TNone
| TAny
| TUnion (l : list pytype)
| TList (k : listkind) (t : pytype)
| TSet (k : setk) (t : pytype)
| TDeque (t : pytype)
| TCounter (t : pytype)
| TDict (k : dictk) (kt vt : pytype)
| TTuple (l : list pytype)
| TVarTuple (t : pytype)                (* tuple[t, ...] *)
| TBare (b : bare)
| TEnum (c : string)
| TClass (c : string)
| TGen (c : string) (args : list pytype)  (* c[args], c derived from typing.Generic *)
| TVar (n : string)
| TLit (l : list litval)
| TStr (k : string)                     (* StrSerializableTypes *)
| TDate (k : string)                    (* DateTimeTypes *)
| TClassVar (t : pytype)
| TAlias (n : string) (t : pytype)      (* PEP 695: type n = t *)
| TOther (c : string).                  (* any class pyserde does not know *)

Section Ind.
  Variable Q : pytype -> Prop.
  Hypothesis HPrim : forall p, Q (TPrim p).
  Hypothesis HPrimSub : forall n p, Q (TPrimSub n p).
  Hypothesis HNewType : forall n p, Q (TNewType n p).
  Hypothesis HNone : Q TNone.
  Hypothesis HAny : Q TAny.
  Hypothesis HUnion : forall l, Forall Q l -> Q (TUnion l).
  Hypothesis HList : forall k t, Q t -> Q (TList k t).
  Hypothesis HSet : forall k t, Q t -> Q (TSet k t).
  Hypothesis HDeque : forall t, Q t -> Q (TDeque t).
  Hypothesis HCounter : forall t, Q t -> Q (TCounter t).
  Hypothesis HDict : forall k kt vt, Q kt -> Q vt -> Q (TDict k kt vt).
  Hypothesis HTuple : forall l, Forall Q l -> Q (TTuple l).
  Hypothesis HVarTuple : forall t, Q t -> Q (TVarTuple t).
  Hypothesis HBare : forall b, Q (TBare b).
  Hypothesis HEnum : forall c, Q (TEnum c).
  Hypothesis HClass : forall c, Q (TClass c).
  Hypothesis HGen : forall c l, Forall Q l -> Q (TGen c l).
  Hypothesis HVar : forall n, Q (TVar n).
  Hypothesis HLit : forall l, Q (TLit l).
  Hypothesis HStr : forall k, Q (TStr k).
  Hypothesis HDate : forall k, Q (TDate k).
  Hypothesis HClassVar : forall t, Q t -> Q (TClassVar t).
  Hypothesis HAlias : forall n t, Q t -> Q (TAlias n t).
  Hypothesis HOther : forall c, Q (TOther c).
  (** Induction over annotations with hypotheses for type arguments. *)
  Fixpoint pytype_ind' (t : pytype) : Q t :=
    let list_ind := fix go l : Forall Q l := match l with
      | [] => Forall_nil _ | x :: r => Forall_cons _ (pytype_ind' x) (go r) end in
    match t with
    | TPrim p => HPrim p | TPrimSub n p => HPrimSub n p | TNewType n p => HNewType n p
    | TNone => HNone | TAny => HAny
    | TUnion l => HUnion l (list_ind l)
    | TList k t => HList k t (pytype_ind' t)
    | TSet k t => HSet k t (pytype_ind' t)
    | TDeque t => HDeque t (pytype_ind' t)
    | TCounter t => HCounter t (pytype_ind' t)
    | TDict k a b => HDict k a b (pytype_ind' a) (pytype_ind' b)
    | TTuple l => HTuple l (list_ind l)
    | TVarTuple t => HVarTuple t (pytype_ind' t)
    | TBare b => HBare b | TEnum c => HEnum c | TClass c => HClass c
    | TGen c l => HGen c l (list_ind l)
    | TVar n => HVar n | TLit l => HLit l | TStr k => HStr k | TDate k => HDate k
    | TClassVar t => HClassVar t (pytype_ind' t)
    | TAlias n t => HAlias n t (pytype_ind' t)
    | TOther c => HOther c
    end.
End Ind.

Definition prim_eqb (a b : prim) : bool :=
  match a, b with PInt, PInt | PFloat, PFloat | PBool, PBool | PStr, PStr => true | _, _ => false end.
Definition listkind_eqb (a b : listkind) : bool :=
  match a, b with LList, LList | LSequence, LSequence | LMutSeq, LMutSeq => true | _, _ => false end.
Definition setk_eqb (a b : setk) : bool :=
  match a, b with SkSet, SkSet | SkFrozen, SkFrozen | SkAbs, SkAbs | SkMut, SkMut => true | _, _ => false end.
Definition dictk_eqb (a b : dictk) : bool :=
  match a, b with
  | DkDict, DkDict | DkDefault, DkDefault | DkMapping, DkMapping | DkMutMapping, DkMutMapping => true
  | _, _ => false end.
Definition bare_eqb (a b : bare) : bool :=
  match a, b with
  | BList x, BList y => listkind_eqb x y
  | BSet x, BSet y => setk_eqb x y
  | BDict x, BDict y => dictk_eqb x y
  | BTuple, BTuple | BDeque, BDeque | BCounter, BCounter => true
  | _, _ => false end.
(** Literal arguments are compared together with their type (typing.Literal.__eq__). *)
Definition litval_eqb (a b : litval) : bool :=
  match a, b with
  | LInt x, LInt y => (x =? y)%Z
  | LStr x, LStr y => String.eqb x y
  | LBool x, LBool y => Bool.eqb x y
  | LNone, LNone => true
  | LEnum c m, LEnum c' m' => String.eqb c c' && String.eqb m m'
  | _, _ => false end.

Definition subset_b {A} (eqb : A -> A -> bool) (l l' : list A) : bool :=
  forallb (fun x => existsb (fun y => eqb x y) l') l.

(** Python [==] on annotations: typing.Union and typing.Literal ignore the order of their
    arguments, everything else is compared structurally. *)
Fixpoint ty_eqb (a b : pytype) {struct a} : bool :=
  let leq := fix leq l l' := match l, l' with
    | [], [] => true
    | x :: r, y :: r' => ty_eqb x y && leq r r'
    | _, _ => false end in
  match a, b with
  | TPrim p, TPrim q => prim_eqb p q
  | TPrimSub n p, TPrimSub n' q => String.eqb n n' && prim_eqb p q
  | TNewType n _, TNewType n' _ => String.eqb n n'
  | TNone, TNone | TAny, TAny => true
  | TUnion l, TUnion l' =>
      Nat.eqb (List.length l) (List.length l') &&
      forallb (fun x => existsb (fun y => ty_eqb x y) l') l
  | TList k t, TList k' t' => listkind_eqb k k' && ty_eqb t t'
  | TSet k t, TSet k' t' => setk_eqb k k' && ty_eqb t t'
  | TDeque t, TDeque t' | TCounter t, TCounter t' | TVarTuple t, TVarTuple t'
  | TClassVar t, TClassVar t' => ty_eqb t t'
  | TDict k t u, TDict k' t' u' => dictk_eqb k k' && ty_eqb t t' && ty_eqb u u'
  | TTuple l, TTuple l' => leq l l'
  | TBare x, TBare y => bare_eqb x y
  | TEnum c, TEnum c' | TClass c, TClass c' | TVar c, TVar c' | TStr c, TStr c'
  | TDate c, TDate c' | TAlias c _, TAlias c' _ | TOther c, TOther c' => String.eqb c c'
  | TGen c l, TGen c' l' => String.eqb c c' && leq l l'
  | TLit l, TLit l' =>
      Nat.eqb (List.length l) (List.length l') && subset_b litval_eqb l l'
  | _, _ => false
  end.

Definition ty_mem (t : pytype) (l : list pytype) : bool := existsb (fun x => ty_eqb x t) l.

(** compat.py:914 *)
Definition is_none (t : pytype) : bool := match t with TNone => true | _ => false end.
(** compat.py:498 *)
Definition is_union (t : pytype) : bool := match t with TUnion _ => true | _ => false end.
(** compat.py:528-560: exactly two arguments, the second one None, the first one not. *)
Definition is_opt (t : pytype) : bool :=
  match t with TUnion [a; TNone] => negb (is_none a) | _ => false end.
Definition opt_arg (t : pytype) : option pytype :=
  match t with TUnion [a; TNone] => if is_none a then None else Some a | _ => None end.
(** type(None) in get_args(t) for a union, de.py:845 *)
Definition has_none_arg (t : pytype) : bool :=
  match t with TUnion l => existsb is_none l | _ => false end.
(** compat.py:1038 *)
Definition is_any (t : pytype) : bool := match t with TAny => true | _ => false end.
(** compat.py:780-804: dict[str, Any] of any mapping class that counts as dict, or a bare one.
    (is_bare_dict excludes bare defaultdict.) *)
Definition is_flatten_dict (t : pytype) : bool :=
  match t with
  | TBare (BDict DkDefault) => false
  | TBare (BDict _) => true
  | TDict _ (TPrim PStr) TAny => true
  | _ => false
  end.
Definition prim_name (p : prim) : string :=
  match p with PInt => "int" | PFloat => "float" | PBool => "bool" | PStr => "str" end.
