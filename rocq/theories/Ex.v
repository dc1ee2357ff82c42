(** Vocabulary for concrete programs: used in examples and counterexamples only. *)
From Coq Require Import String List ZArith Bool Ascii.
From Verif Require Import Base PyVal PyType Program Compat Syntax SeRender DeRender Eval Formats.
Import ListNotations.
Open Scope string_scope.
Open Scope list_scope.

(** A field with no options: [n: t]. *)
Definition fld (n : string) (t : pytype) : fielddef :=
  {| f_name := n; f_type := t; f_default := None; f_init := true; f_kw_only := false;
     f_rename := None; f_alias := []; f_skip := false; f_skip_se := false; f_skip_de := false;
     f_skip_if := None; f_skip_if_false := false; f_skip_if_none := None; f_skip_if_default := None;
     f_serializer := None; f_deserializer := None; f_flatten := false |}.

Definition with_default (v : pyval) (f : fielddef) : fielddef :=
  {| f_name := f_name f; f_type := f_type f; f_default := Some (DVal v); f_init := f_init f; f_kw_only := f_kw_only f;
     f_rename := f_rename f; f_alias := f_alias f; f_skip := f_skip f; f_skip_se := f_skip_se f; f_skip_de := f_skip_de f;
     f_skip_if := f_skip_if f; f_skip_if_false := f_skip_if_false f; f_skip_if_none := f_skip_if_none f;
     f_skip_if_default := f_skip_if_default f;
     f_serializer := f_serializer f; f_deserializer := f_deserializer f; f_flatten := f_flatten f |}.
Definition with_init (b : bool) (f : fielddef) : fielddef :=
  {| f_name := f_name f; f_type := f_type f; f_default := f_default f; f_init := b; f_kw_only := f_kw_only f;
     f_rename := f_rename f; f_alias := f_alias f; f_skip := f_skip f; f_skip_se := f_skip_se f; f_skip_de := f_skip_de f;
     f_skip_if := f_skip_if f; f_skip_if_false := f_skip_if_false f; f_skip_if_none := f_skip_if_none f;
     f_skip_if_default := f_skip_if_default f;
     f_serializer := f_serializer f; f_deserializer := f_deserializer f; f_flatten := f_flatten f |}.
Definition with_kw_only (f : fielddef) : fielddef :=
  {| f_name := f_name f; f_type := f_type f; f_default := f_default f; f_init := f_init f; f_kw_only := true;
     f_rename := f_rename f; f_alias := f_alias f; f_skip := f_skip f; f_skip_se := f_skip_se f; f_skip_de := f_skip_de f;
     f_skip_if := f_skip_if f; f_skip_if_false := f_skip_if_false f; f_skip_if_none := f_skip_if_none f;
     f_skip_if_default := f_skip_if_default f;
     f_serializer := f_serializer f; f_deserializer := f_deserializer f; f_flatten := f_flatten f |}.
Definition with_names (rename : option string) (alias : list string) (f : fielddef) : fielddef :=
  {| f_name := f_name f; f_type := f_type f; f_default := f_default f; f_init := f_init f; f_kw_only := f_kw_only f;
     f_rename := rename; f_alias := alias; f_skip := f_skip f; f_skip_se := f_skip_se f; f_skip_de := f_skip_de f;
     f_skip_if := f_skip_if f; f_skip_if_false := f_skip_if_false f; f_skip_if_none := f_skip_if_none f;
     f_skip_if_default := f_skip_if_default f;
     f_serializer := f_serializer f; f_deserializer := f_deserializer f; f_flatten := f_flatten f |}.
Definition with_skip (s se de : bool) (f : fielddef) : fielddef :=
  {| f_name := f_name f; f_type := f_type f; f_default := f_default f; f_init := f_init f; f_kw_only := f_kw_only f;
     f_rename := f_rename f; f_alias := f_alias f; f_skip := s; f_skip_se := se; f_skip_de := de;
     f_skip_if := f_skip_if f; f_skip_if_false := f_skip_if_false f; f_skip_if_none := f_skip_if_none f;
     f_skip_if_default := f_skip_if_default f;
     f_serializer := f_serializer f; f_deserializer := f_deserializer f; f_flatten := f_flatten f |}.
Definition with_skip_if (p : option (pyval -> res bool)) (sf : bool) (sn sd : option bool) (f : fielddef) : fielddef :=
  {| f_name := f_name f; f_type := f_type f; f_default := f_default f; f_init := f_init f; f_kw_only := f_kw_only f;
     f_rename := f_rename f; f_alias := f_alias f; f_skip := f_skip f; f_skip_se := f_skip_se f; f_skip_de := f_skip_de f;
     f_skip_if := p; f_skip_if_false := sf; f_skip_if_none := sn; f_skip_if_default := sd;
     f_serializer := f_serializer f; f_deserializer := f_deserializer f; f_flatten := f_flatten f |}.
Definition with_fns (s d : option ffun) (f : fielddef) : fielddef :=
  {| f_name := f_name f; f_type := f_type f; f_default := f_default f; f_init := f_init f; f_kw_only := f_kw_only f;
     f_rename := f_rename f; f_alias := f_alias f; f_skip := f_skip f; f_skip_se := f_skip_se f; f_skip_de := f_skip_de f;
     f_skip_if := f_skip_if f; f_skip_if_false := f_skip_if_false f; f_skip_if_none := f_skip_if_none f;
     f_skip_if_default := f_skip_if_default f;
     f_serializer := s; f_deserializer := d; f_flatten := f_flatten f |}.
Definition flat (f : fielddef) : fielddef :=
  {| f_name := f_name f; f_type := f_type f; f_default := f_default f; f_init := f_init f; f_kw_only := f_kw_only f;
     f_rename := f_rename f; f_alias := f_alias f; f_skip := f_skip f; f_skip_se := f_skip_se f; f_skip_de := f_skip_de f;
     f_skip_if := f_skip_if f; f_skip_if_false := f_skip_if_false f; f_skip_if_none := f_skip_if_none f;
     f_skip_if_default := f_skip_if_default f;
     f_serializer := f_serializer f; f_deserializer := f_deserializer f; f_flatten := true |}.

(** @serde class with default options. *)
Definition cls (n : string) (fs : list fielddef) : classdef :=
  {| c_id := n; c_name := n; c_fields := fs;
     c_mro := []; c_rename_all := None; c_reuse := true; c_conv := false;
     c_skip_if_default := false; c_skip_if_none := false; c_serializer := None; c_deserializer := None;
     c_tagging := TagExternal; c_check := TcStrict; c_ser_class_var := false; c_class_vars := [];
     c_transparent := false; c_class_ser := None; c_class_de := None; c_deny := false;
     c_tvars := None; c_post := fun o => Ok o; c_hashable := false |}.
(** ... and with some options. *)
Definition clsx (n : string) (fs : list fielddef) (rename_all : option string) (tg : tagging) (tc : tcheck)
    (transparent deny : bool) : classdef :=
  {| c_id := n; c_name := n; c_fields := fs;
     c_mro := []; c_rename_all := rename_all; c_reuse := true; c_conv := false;
     c_skip_if_default := false; c_skip_if_none := false; c_serializer := None; c_deserializer := None;
     c_tagging := tg; c_check := tc; c_ser_class_var := false; c_class_vars := [];
     c_transparent := transparent; c_class_ser := None; c_class_de := None; c_deny := deny;
     c_tvars := None; c_post := fun o => Ok o; c_hashable := false |}.
Definition generic (tv : list string) (d : classdef) : classdef :=
  {| c_id := c_id d; c_name := c_name d; c_fields := c_fields d;
     c_mro := c_mro d; c_rename_all := c_rename_all d; c_reuse := c_reuse d; c_conv := c_conv d;
     c_skip_if_default := c_skip_if_default d; c_skip_if_none := c_skip_if_none d;
     c_serializer := c_serializer d; c_deserializer := c_deserializer d;
     c_tagging := c_tagging d; c_check := c_check d; c_ser_class_var := c_ser_class_var d;
     c_class_vars := c_class_vars d;
     c_transparent := c_transparent d; c_class_ser := c_class_ser d; c_class_de := c_class_de d; c_deny := c_deny d;
     c_tvars := Some tv; c_post := c_post d; c_hashable := c_hashable d |}.

Definition prog (cs : list classdef) (es : list enumdef) : program :=
  mkProgram cs es [] [] (fun _ _ => false).

Definition TInt := TPrim PInt.
Definition TFloat := TPrim PFloat.
Definition TBool := TPrim PBool.
Definition TString := TPrim PStr.
Definition TOpt (t : pytype) := TUnion [t; TNone].

(** First letter in upper case, a stand-in for casefy.pascalcase. *)
Definition cap (s : string) : string :=
  match s with
  | EmptyString => EmptyString
  | String a r =>
      let n := nat_of_ascii a in
      String (if Nat.leb 97 n && Nat.leb n 122 then ascii_of_nat (n - 32) else a) r
  end.

(** int(str) on decimal digits *)
Fixpoint digits (acc : Z) (s : string) : option Z :=
  match s with
  | EmptyString => Some acc
  | String a r =>
      let n := nat_of_ascii a in
      if Nat.leb 48 n && Nat.leb n 57 then digits (acc * 10 + Z.of_nat (n - 48)) r else None
  end.
Definition int_of_str (s : string) : option Z :=
  match s with
  | EmptyString => None
  | String "-" r => match r with EmptyString => None | _ => option_map Z.opp (digits 0 r) end
  | _ => digits 0 s
  end.

(** A simple runtime: the constructor of a str-serializable class takes a str or an instance. *)
Definition W0 : world :=
  mkWorld (fun c s => if String.eqb c "pascalcase" then Some (cap s) else None)
    (fun k v => match v with VStr s => Ok (VInst k s) | VInst _ s => Ok (VInst k s) | _ => Raise XType end)
    (fun k v => match v with VStr s => Ok (VDate k s) | _ => Raise XType end)
    (fun _ => None) int_of_str (fun _ => "?") (fun _ => Some 0).

Definition dict (l : list (string * pyval)) : pyval :=
  VMap MDict (map (fun kv => (VStr (fst kv), snd kv)) l).
Definition vlist (l : list pyval) : pyval := VSeq KList l.
