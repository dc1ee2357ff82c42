(** The Python expressions that appear in generated functions. *)
From Coq Require Import String List ZArith Bool Ascii.
From Verif Require Import Base PyVal PyType Program Compat.
Import ListNotations.
Open Scope list_scope.
Open Scope string_scope.

(** Calls of builtin constructors on one argument. *)
Inductive builtin := BkList | BkSet | BkTuple | BkDeque | BkDict | BkCounter.

(** Class on which a nested deserialize function is called: the variable [cls] or a type name. *)
Inductive detarget := DtCls | DtName (t : pytype).

Inductive expr : Type :=
| EVar (x : string)
| ENone
| EAttr (e : expr) (a : string)              (* e.a *)
| EKey (e : expr) (k : string)               (* e["k"] *)
| EIdx (e : expr) (n : nat)                  (* e[n] *)
| ESlice (e : expr) (n : nat)                (* e[n:] *)
| EGet (e : expr) (k : string)               (* e.get("k") *)
| EAliases (ks : list string) (raise_error : bool)  (* _get_by_aliases(data, [ks], raise_error) *)
| EIf (c a b : expr)                         (* a if c else b *)
| ENotNone (e : expr)                        (* e is not None *)
| EIn (k : string) (e : expr)                (* "k" in e *)
| EInAliases (e : expr) (ks : list string)   (* _exists_by_aliases(e, [ks]) *)
| EAnd (a b : expr)                          (* a and b *)
| EIsInst (e : expr) (t : pytype)            (* isinstance(e, typename(t)) *)
| EReuse                                     (* reuse_instances *)
| EConv                                      (* convert_sets *)
| EHasNum                                    (* deserialize_numbers, as a condition *)
| EComp (k : seqkind) (e : expr) (it : expr) (* [e for v in it], set(e for v in it), ... *)
| EMapComp (ek ev : expr) (it : expr)        (* {ek: ev for k, v in it.items()} *)
| ETuple (l : list expr)                     (* (e1, ..., en,) *)
| EBuiltin (b : builtin) (e : expr)
| EDefDict (factory : string) (e : expr)     (* collections.defaultdict(factory, e) *)
| ECoerce (cls field : string) (t : pytype) (e : expr)  (* coerce_object("cls", "field", t, e) *)
| EEnumVal (t : pytype) (e : expr)           (* enum_value(t, e) *)
| EDeEnum (t : pytype) (e : expr)            (* deserialize_enum(t, e) *)
| EStr (e : expr)                            (* str(e) *)
| EIso (e : expr)                            (* e.isoformat() *)
| EFromIso (t : pytype) (e : expr)           (* t.fromisoformat(e) *)
| ECtor (t : pytype) (e : expr)              (* t(e) *)
| EFn (f : string) (e : expr)                (* f(e), f from the globals *)
| EClsSer (n : nat) (e : expr)               (* class_serializers[n].serialize(e) *)
| EClsDe (n : nat) (t : pytype) (e : expr)   (* class_deserializers[n].deserialize(t, e) *)
| ELegacySe (t : pytype) (e d : expr)        (* serde_legacy_custom_class_serializer(t, e, default=lambda: d) *)
| ELegacyDe (t : pytype) (e d : expr)        (* serde_legacy_custom_class_deserializer(t, _, e, default=lambda: d) *)
| EToObj (e : expr)                          (* to_obj(e, True, False, False, skip_none, typing.Any) *)
| EFromGen (idx : option nat) (e : expr) (named : bool)
    (* from_obj(get_generic_arg(maybe_generic, maybe_generic_type_vars, variable_type_args, idx), e, ...);
       None stands for index -1 *)
| ESeFn (e : expr) (named : bool)            (* e.__serde__.funcs['to_dict'](e, ...) *)
| EDeFn (t : detarget) (e : expr) (named : bool) (targs : option (list string))
    (* t.__serde__.funcs['from_dict'](data=e, ..., variable_type_args=targs, ...) *)
| EUnionSe (f : string) (e : expr)           (* serde_scope.funcs['f'](e, reuse_instances, convert_sets, skip_none) *)
| EUnionDe (f : string) (e : expr)           (* serde_scope.funcs['f'](cls=cls, data=e, ...) *)
| ELitDe (f : string) (e : expr)
| ENum (e : expr)                            (* deserialize_numbers(e) *)
| EDefault (f : string).                     (* serde_scope.defaults["f"], called if it is a factory *)

(** Text of the expressions that serve as variable names ([varname], [data]). *)
Fixpoint show (e : expr) : string :=
  match e with
  | EVar x => x
  | EAttr e a => show e ++ "." ++ a
  | EIdx e n => show e ++ "[" ++ n_str n ++ "]"
  | EKey e k => show e ++ "[""" ++ k ++ """]"
  | EGet e k => show e ++ ".get(""" ++ k ++ """)"
  | _ => ""
  end.
