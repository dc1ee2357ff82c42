(** What a data format may do to serialized data ([Norm]), and when two values are the same up to the
    order of mapping entries ([same]). *)
From Coq Require Import String List ZArith Bool Permutation.
From Verif Require Import Base PyVal PyType Program Compat Spec.
Import ListNotations.
Open Scope string_scope.
Open Scope list_scope.

Section Fmt.
  (** [ord]: entries of mappings may be reordered (YAML sorts keys, TOML writes tables last);
      [txt]: keys of mappings become text (JSON);
      [seq]: lists and tuples become this kind (list: JSON, YAML, TOML; tuple: MsgPack). *)
  Variables (ord txt : bool) (seq : option seqkind).

  (** Key [k] is read back as [k']. *)
  Inductive nkey : pyval -> pyval -> Prop :=
  | K_same k : txt = false -> nkey k k
  | K_str s : nkey (VStr s) (VStr s)
  | K_int z : txt = true -> nkey (VInt z) (VStr (z_str z))
  | K_sub c v k : nkey v k -> nkey (VSub c v) k
  | K_text k s : txt = true -> match k with VStr _ | VInt _ | VSub _ _ => False | _ => True end -> nkey k (VStr s).

  Definition reordered {A} (l l' : list A) : Prop := l' = l \/ ord = true /\ Permutation l l'.
  Definition list_or_tuple (k : seqkind) : Prop := k = KList \/ k = KTuple.

  (** Data [x] is read back as [y]. *)
  Inductive Norm : pyval -> pyval -> Prop :=
  | N_same x : txt = false -> Norm x x
  | N_scalar x : scalar_val x = true -> Norm x x
  | N_sub c v : v <> VNone -> scalar_val v = true -> Norm (VSub c v) v
  | N_seq k k' l l' : list_or_tuple k -> list_or_tuple k' -> k' = k \/ seq = Some k' ->
      Forall2 Norm l l' -> Norm (VSeq k l) (VSeq k' l')
  | N_map l l1 l' : Forall2 (fun kv kv' => nkey (fst kv) (fst kv') /\ Norm (snd kv) (snd kv')) l l1 ->
      reordered l1 l' -> Norm (VMap MDict l) (VMap MDict l').

  (** Equal up to the order of mapping entries (which Python == ignores). *)
  Inductive same : pyval -> pyval -> Prop :=
  | S_refl v : same v v
  | S_seq k l l' : Forall2 same l l' -> same (VSeq k l) (VSeq k l')
  | S_map m l l1 l' : Forall2 (fun kv kv' => fst kv' = fst kv /\ same (snd kv) (snd kv')) l l1 ->
      reordered l1 l' -> same (VMap m l) (VMap m l')
  | S_obj c l l' : Forall2 (fun nv nv' => fst nv' = fst nv /\ same (snd nv) (snd nv')) l l' ->
      same (VObj c l) (VObj c l').

  (** Keys that survive being text *)
  Fixpoint text_key (P : program) (t : pytype) : bool :=
    match t with
    | TPrim PStr | TPrimSub _ PStr | TNewType _ PStr | TStr _ | TDate _ => true
    | TEnum c =>
        match get_enum P c with
        | Some e => forallb (fun nv => match snd nv with VStr _ => true | _ => false end) (e_members e) ||
                    forallb (fun nv => match snd nv with VInt _ => true | _ => false end) (e_members e)
        | None => false
        end
    | TAlias _ a => text_key P a
    | _ => false
    end.

  (** The annotation survives the format.  [hook]: from_json / from_yaml convert numbers. *)
  Definition fmt_ok (P : program) (hook : bool) (t : pytype) : Prop :=
    forall s, sub_ty s t ->
      match s with
      | TPrimSub _ PFloat => hook = false
      | TCounter a => txt = true -> text_key P a = true
      | TDict _ a _ => txt = true -> text_key P a = true \/ a = TPrim PInt
      | _ => True
      end.

  (** Data without a type survives the format. *)
  Definition survives (v : pyval) : Prop := forall y, Norm v y -> same v y.

  (** Classes all of whose annotations survive, and whose __post_init__ does not depend on the order
      of mapping entries *)
  Definition class_fmt (P : program) (hook : bool) (d : classdef) : Prop :=
    (forall f, In f (c_fields d) -> written f || read f = true -> fmt_ok P hook (f_type f)) /\
    (forall o o', same o o' -> c_post d o = Ok o -> c_post d o' = Ok o').
End Fmt.
