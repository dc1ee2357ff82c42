(** Properties the code does not have: concrete programs and data on which the model of the code
    violates the claim.  Each theorem restates the full claim in its comment. *)
From Coq Require Import String List ZArith Bool Ascii.
From Verif Require Import Base PyVal PyType Program Compat Syntax SeRender DeRender Eval Formats Ex.
Import ListNotations.
Open Scope string_scope.
Open Scope list_scope.

Section Calls.
  Variable P : program.
  (** from_dict(c, to_dict(o)) and from_tuple(c, to_tuple(o)) with default options *)
  Definition rt (c : string) (o : pyval) : res pyval :=
    d <- to_dict P W0 [] 20 o None None None false ;;
    from_dict P W0 [] 20 (TagExternal, TClass c) d None None.
  Definition rt_tuple (c : string) (o : pyval) : res pyval :=
    d <- to_tuple P W0 [] 20 o None None None false ;;
    from_tuple P W0 [] 20 (TagExternal, TClass c) d None None.
End Calls.

(** C23, full claim: serialization and deserialization of a field use the same wire name, also with
    alias.  With rename="x" and alias=["y"] the field is written as "x" but looked up as "a" or "y". *)
Theorem C23_rename_alias_refuted :
  exists P o, to_dict P W0 [] 20 o None None None false = Ok (dict [("x", VInt 1)]) /\
    o = VObj "C" [("a", VInt 1)] /\
    exists e, rt P "C" o = Raise e.
Proof.
  exists (prog [cls "C" [with_names (Some "x") ["y"] (fld "a" TInt)]] []).
  eexists. split; [|split; [reflexivity|]]; [vm_compute; reflexivity|].
  eexists. vm_compute. reflexivity.
Qed.

(** The same with a default: the value is silently replaced by the default. *)
Theorem C23_rename_alias_default_refuted :
  exists P, rt P "C" (VObj "C" [("a", VInt 1)]) = Ok (VObj "C" [("a", VInt 0)]).
Proof.
  exists (prog [cls "C" [with_default (VInt 0) (with_names (Some "x") ["y"] (fld "a" TInt))]] []).
  vm_compute. reflexivity.
Qed.

(** C22, full claim: a field with aliases can be read from its name or any alias.  With an alias a
    field of type list[int] cannot be read at all, not even under its own name. *)
Theorem C22_container_alias_refuted :
  exists P, let o := VObj "C" [("a", vlist [VInt 1])] in
    to_dict P W0 [] 20 o None None None false = Ok (dict [("a", vlist [VInt 1])]) /\
    rt P "C" o = Raise (XSerde (MWrap (XSerde (MMissing "a" "C")))) /\
    exists e, from_dict P W0 [] 20 (TagExternal, TClass "C") (dict [("b", vlist [VInt 1])]) None None = Raise e.
Proof.
  exists (prog [cls "C" [with_names None ["b"] (fld "a" (TList LList TInt))]] []).
  split; [|split]; [vm_compute; reflexivity..|]. eexists. vm_compute. reflexivity.
Qed.

(** An alias on a field of dataclass type is ignored. *)
Theorem C22_class_alias_refuted :
  exists P, exists e,
    from_dict P W0 [] 20 (TagExternal, TClass "C") (dict [("b", dict [("x", VInt 1)])]) None None = Raise e /\
    from_dict P W0 [] 20 (TagExternal, TClass "C") (dict [("a", dict [("x", VInt 1)])]) None None
      = Ok (VObj "C" [("a", VObj "D" [("x", VInt 1)])]) /\
    (forall d f, In d (p_classes P) -> In f (c_fields d) -> f_name f = "a" -> f_alias f = ["b"]).
Proof.
  exists (prog [cls "D" [fld "x" TInt]; cls "C" [with_names None ["b"] (fld "a" (TClass "D"))]] []).
  eexists. split; [|split]; [vm_compute; reflexivity..|].
  simpl. intros d f [<-|[<-|[]]] [<-|[]]; simpl; congruence.
Qed.

(** C10, full claim: keys that are not wire names or aliases do not influence from_dict.  With an
    alias on list[int] every element is read from the unrelated key "v". *)
Theorem C10_alias_reads_foreign_key_refuted :
  exists P, let call kvs := from_dict P W0 [] 20 (TagExternal, TClass "C") (dict kvs) None None in
    (forall d f, In d (p_classes P) -> In f (c_fields d) ->
       f_name f = "a" /\ f_rename f = None /\ f_alias f = ["b"] /\ c_rename_all d = None) /\
    call [("a", vlist [VInt 1; VInt 2]); ("v", VInt 7)] = Ok (VObj "C" [("a", vlist [VInt 7; VInt 7])]) /\
    call [("a", vlist [VInt 1; VInt 2]); ("v", VInt 8)] = Ok (VObj "C" [("a", vlist [VInt 8; VInt 8])]).
Proof.
  exists (prog [cls "C" [with_names None ["b"] (fld "a" (TList LList TInt))]] []).
  split; [|split]; [|vm_compute; reflexivity..].
  simpl. intros d f [<-|[]] [<-|[]]; repeat split.
Qed.

(** C36, full claim: if from_dict(C, to_dict(x)) = x then from_tuple(C, to_tuple(x)) = x.
    A skipped field in the middle makes every later value land in the wrong field. *)
Theorem C36_skip_refuted :
  exists P, let o := VObj "C" [("a", VInt 1); ("b", VInt 0); ("c", VInt 3)] in
    rt P "C" o = Ok o /\
    to_tuple P W0 [] 20 o None None None false = Ok (VSeq KTuple [VInt 1; VInt 3]) /\
    rt_tuple P "C" o = Ok (VObj "C" [("a", VInt 1); ("b", VInt 3); ("c", VInt 5)]).
Proof.
  exists (prog [cls "C" [fld "a" TInt; with_default (VInt 0) (with_skip true false false (fld "b" TInt));
                         with_default (VInt 5) (fld "c" TInt)]] []).
  repeat split; vm_compute; reflexivity.
Qed.

(** ... and keyword-only fields cannot be read from a tuple. *)
Theorem C36_kw_only_refuted :
  exists P, let o := VObj "C" [("a", VInt 1); ("b", VInt 0)] in
    rt P "C" o = Ok o /\ rt_tuple P "C" o = Raise XType.
Proof.
  exists (prog [cls "C" [fld "a" TInt; with_kw_only (fld "b" TInt)]] []).
  split; vm_compute; reflexivity.
Qed.

(** C13, full claim: a class with a flattened dataclass field round trips when the wire names do not
    clash.  The parent's rename_all is applied to the child's keys on serialization only. *)
Theorem C13_rename_all_refuted :
  exists P, let o := VObj "A" [("b", VObj "B" [("x", VInt 1)])] in
    to_dict P W0 [] 20 o None None None false = Ok (dict [("X", VInt 1)]) /\
    rt P "A" o = Raise (XSerde (MWrap (XSerde (MMissing "x" "B")))).
Proof.
  exists (prog [cls "B" [fld "x" TInt];
                clsx "A" [flat (fld "b" (TClass "B"))] (Some "pascalcase") TagExternal TcStrict false false] []).
  split; vm_compute; reflexivity.
Qed.

(** An Optional flattened child comes back as None when one of its own fields is None. *)
Theorem C13_optional_refuted :
  exists P, let o := VObj "A" [("b", VObj "B" [("x", VNone); ("y", VInt 1)])] in
    to_dict P W0 [] 20 o None None None false = Ok (dict [("x", VNone); ("y", VInt 1)]) /\
    rt P "A" o = Ok (VObj "A" [("b", VNone)]).
Proof.
  exists (prog [cls "B" [fld "x" (TOpt TInt); fld "y" TInt]; cls "A" [flat (fld "b" (TOpt (TClass "B")))]] []).
  split; vm_compute; reflexivity.
Qed.

(** An Optional flattened child that is None cannot be serialized. *)
Theorem C13_optional_none_refuted :
  exists P, to_dict P W0 [] 20 (VObj "A" [("b", VNone)]) None None None false = Raise (XSerde (MWrap XAttr)).
Proof.
  exists (prog [cls "B" [fld "x" TInt]; cls "A" [flat (fld "b" (TOpt (TClass "B")))]] []).
  vm_compute; reflexivity.
Qed.

(** C04, full claim: the value of a field with skip=True never shows up in the output.  It does when
    its class is flattened into another one. *)
Theorem C04_flatten_leak_refuted :
  exists P, let o s := VObj "A" [("b", VObj "B" [("x", VInt 1); ("secret", VInt s)])] in
    (forall d f, In d (p_classes P) -> In f (c_fields d) -> f_name f = "secret" -> f_skip f = true) /\
    forall s, to_dict P W0 [] 20 (o s) None None None false = Ok (dict [("x", VInt 1); ("secret", VInt s)]).
Proof.
  exists (prog [cls "B" [fld "x" TInt; with_default (VInt 0) (with_skip true false false (fld "secret" TInt))];
                cls "A" [flat (fld "b" (TClass "B"))]] []).
  split; [|intros s; vm_compute; reflexivity].
  simpl. intros d f [<-|[<-|[]]]; simpl; [intros [<-|[<-|[]]]|intros [<-|[]]]; simpl; congruence.
Qed.

(** C12, full claim: entries of a flattened dict are written out.  They are lost when the class with
    the flattened dict is itself flattened and has another field. *)
Theorem C12_nested_flatten_dict_refuted :
  exists P, let o := VObj "A" [("b", VObj "B" [("x", VInt 1); ("e", dict [("k", VInt 9)])])] in
    to_dict P W0 [] 20 o None None None false = Ok (dict [("x", VInt 1)]) /\
    rt P "A" o = Ok (VObj "A" [("b", VObj "B" [("x", VInt 1); ("e", dict [])])]).
Proof.
  exists (prog [cls "B" [fld "x" TInt; flat (fld "e" (TDict DkDict TString TAny))];
                cls "A" [flat (fld "b" (TClass "B"))]] []).
  split; vm_compute; reflexivity.
Qed.

(** C37, full claim: different union or literal types of a class get different functions.
    Literal["r+"] and Literal["r-"] share one, so that well-typed data is rejected. *)
Theorem C37_literal_refuted :
  exists P, let o := VObj "C" [("a", VStr "r+"); ("b", VStr "r-")] in
    literal_func_name P [LStr "r+"] = literal_func_name P [LStr "r-"] /\
    to_dict P W0 [] 20 o None None None false = Ok (dict [("a", VStr "r+"); ("b", VStr "r-")]) /\
    rt P "C" o = Raise (XSerde (MWrap (XSerde MLiteral))).
Proof.
  exists (prog [cls "C" [fld "a" (TLit [LStr "r+"]); fld "b" (TLit [LStr "r-"])]] []).
  repeat split; vm_compute; reflexivity.
Qed.

(** Union[A_B, C] and Union[A, B_C] share one function: a well-typed value cannot be serialized. *)
Theorem C37_union_refuted :
  exists P, let o := VObj "M" [("u", VObj "C" [("x", VInt 1)]); ("w", VObj "A" [("x", VInt 1)])] in
    union_func_name P "union_se" [TClass "A_B"; TClass "C"] = union_func_name P "union_se" [TClass "A"; TClass "B_C"] /\
    to_dict P W0 [] 20 o None None None false = Raise (XSerde (MWrap (XSerde MUnionSe))).
Proof.
  exists (prog [cls "A_B" [fld "x" TInt]; cls "C" [fld "x" TInt]; cls "A" [fld "x" TInt]; cls "B_C" [fld "x" TInt];
    cls "M" [fld "u" (TUnion [TClass "A_B"; TClass "C"]); fld "w" (TUnion [TClass "A"; TClass "B_C"])]] []).
  split; vm_compute; reflexivity.
Qed.

(** C15: why its side conditions are needed.  A field with the tag as wire name is overwritten... *)
Theorem C15_tag_clash_refuted :
  exists P, let o := VObj "M" [("u", VObj "V" [("t", VStr "q"); ("x", VInt 1)])] in
    rt P "M" o = Ok (VObj "M" [("u", VObj "V" [("t", VStr "V"); ("x", VInt 1)])]).
Proof.
  exists (prog [cls "V" [fld "t" TString; fld "x" TInt]; cls "V2" [fld "x" TInt];
    clsx "M" [fld "u" (TUnion [TClass "V"; TClass "V2"])] None (TagInternal "t") TcStrict false false] []).
  vm_compute; reflexivity.
Qed.

(** ... and a variant with deny_unknown_fields rejects the tag of its own serialized form. *)
Theorem C15_deny_refuted :
  exists P, let o := VObj "M" [("u", VObj "V" [("x", VInt 1)])] in
    to_dict P W0 [] 20 o None None None false = Ok (dict [("u", dict [("x", VInt 1); ("t", VStr "V")])]) /\
    rt P "M" o = Raise (XSerde (MWrap (XSerde MUnionDe))).
Proof.
  exists (prog [clsx "V" [fld "x" TInt] None TagExternal TcStrict false true; cls "V2" [fld "x" TInt];
    clsx "M" [fld "u" (TUnion [TClass "V"; TClass "V2"])] None (TagInternal "t") TcStrict false false] []).
  split; vm_compute; reflexivity.
Qed.

(** C30, full claim: the result does not depend on unions used before in the process.
    After from_dict(Union[B, A], ...), from_dict(Union[A, B], ...) fails with KeyError: the two unions
    are equal as cache keys but their functions have different names. *)
Theorem C30_refuted :
  exists P, let U := TUnion [TClass "A"; TClass "B"] in let U' := TUnion [TClass "B"; TClass "A"] in
    let data := dict [("A", dict [("x", VInt 1)])] in
    from_dict P W0 [] 20 (TagExternal, U) data None None = Ok (VObj "A" [("x", VInt 1)]) /\
    from_dict P W0 [(TagExternal, U')] 20 (TagExternal, U) data None None = Raise XKey /\
    to_dict P W0 [] 20 (VObj "A" [("x", VInt 1)]) (Some (TagExternal, U)) None None false = Ok data /\
    to_dict P W0 [(TagExternal, U')] 20 (VObj "A" [("x", VInt 1)]) (Some (TagExternal, U)) None None false
      = Raise (XSerde (MWrap XKey)).
Proof.
  exists (prog [cls "A" [fld "x" TInt]; cls "B" [fld "x" TInt]] []).
  repeat split; vm_compute; reflexivity.
Qed.

(** C24, full claim: from_dict raises only SerdeError or an exception of the user's constructor.
    The KeyError above escapes unwrapped. *)
Theorem C24_union_cache_refuted :
  exists P K c data, from_dict P W0 K 20 c data None None = Raise XKey.
Proof.
  exists (prog [cls "A" [fld "x" TInt]; cls "B" [fld "x" TInt]] []),
    [(TagExternal, TUnion [TClass "B"; TClass "A"])], (TagExternal, TUnion [TClass "A"; TClass "B"]),
    (dict [("A", dict [("x", VInt 1)])]).
  vm_compute; reflexivity.
Qed.

(** C38, full claim: from_dict(Foo[A], data) deserializes a field of type T as A. *)
Theorem C38_refuted :
  exists P, let o := VObj "G" [("v", VObj "A" [("x", VInt 1)])] in
    to_dict P W0 [] 20 o None None None false = Ok (dict [("v", dict [("x", VInt 1)])]) /\
    from_dict P W0 [] 20 (TagExternal, TGen "G" [TClass "A"]) (dict [("v", dict [("x", VInt 1)])]) None None
      = Ok (VObj "G" [("v", dict [("x", VInt 1)])]).
Proof.
  exists (prog [cls "A" [fld "x" TInt]; generic ["T"] (cls "G" [fld "v" (TVar "T")])] []).
  split; vm_compute; reflexivity.
Qed.

(** ... also when Foo[A] is the type of a field. *)
Theorem C38_field_refuted :
  exists P, let o := VObj "H" [("g", VObj "G" [("v", VObj "A" [("x", VInt 1)])])] in
    rt P "H" o = Ok (VObj "H" [("g", VObj "G" [("v", dict [("x", VInt 1)])])]).
Proof.
  exists (prog [cls "A" [fld "x" TInt]; generic ["T"] (cls "G" [fld "v" (TVar "T")]);
                cls "H" [fld "g" (TGen "G" [TClass "A"])]] []).
  vm_compute; reflexivity.
Qed.

(** C39, full claim: data of the wrong length is rejected for a fixed-size tuple.  Extra elements are
    dropped in a field; missing ones are accepted at top level. *)
Theorem C39_too_long_refuted :
  exists P, from_dict P W0 [] 20 (TagExternal, TClass "C") (dict [("t", vlist [VInt 1; VInt 2; VInt 3])]) None None
    = Ok (VObj "C" [("t", VSeq KTuple [VInt 1; VInt 2])]) /\
    (forall d f, In d (p_classes P) -> In f (c_fields d) -> f_type f = TTuple [TInt; TInt]).
Proof.
  exists (prog [cls "C" [fld "t" (TTuple [TInt; TInt])]] []).
  split; [vm_compute; reflexivity|]. simpl. intros d f [<-|[]] [<-|[]]. reflexivity.
Qed.
Theorem C39_too_short_refuted :
  exists P, from_dict P W0 [] 20 (TagExternal, TTuple [TInt; TInt]) (vlist [VInt 1]) None None
    = Ok (VSeq KTuple [VInt 1]).
Proof. exists (prog [] []). vm_compute; reflexivity. Qed.

(** C29, full claim: with reuse_instances=False and convert_sets=True the output is plain data.
    An enum member under Any stays an enum member. *)
Theorem C29_any_refuted :
  exists P, to_dict P W0 [] 20 (VObj "C" [("a", VEnum "E" "A")]) None (Some false) (Some true) false
    = Ok (dict [("a", VEnum "E" "A")]).
Proof.
  exists (prog [cls "C" [fld "a" TAny]] [mkEnum "E" "E" None [("A", VInt 1); ("B", VInt 2)]]).
  vm_compute; reflexivity.
Qed.

(** C35, full claim: the last registered global serializer for a type is used everywhere.
    At top level the first one is used, in a field the last one. *)
Theorem C35_refuted :
  exists P s1 s2, p_sers P = [s1; s2] /\ In (TClass "A") (cs_types s1) /\ In (TClass "A") (cs_types s2) /\
    let a := VObj "A" [] in
    cs_fn s1 a = Ok (VStr "first") /\ cs_fn s2 a = Ok (VStr "last") /\
    to_dict P W0 [] 20 a None None None false = Ok (VStr "first") /\
    to_dict P W0 [] 20 (VObj "B" [("a", a)]) None None None false = Ok (dict [("a", VStr "last")]).
Proof.
  exists (mkProgram [cls "A" []; cls "B" [fld "a" (TClass "A")]] []
    [mkClsser [TClass "A"] (fun _ => Ok (VStr "first")); mkClsser [TClass "A"] (fun _ => Ok (VStr "last"))] []
    (fun _ _ => false)).
  eexists. eexists. split; [reflexivity|]. simpl In. repeat split; try tauto; vm_compute; reflexivity.
Qed.

(** C01: why skip_none is limited.  An Optional field with a non-None default loses None. *)
Theorem C01_skip_none_refuted :
  exists P, let o := VObj "C" [("a", VNone)] in
    (d <- to_dict P W0 [] 20 o None None None true ;;
     from_dict P W0 [] 20 (TagExternal, TClass "C") d None None) = Ok (VObj "C" [("a", VInt 1)]).
Proof.
  exists (prog [cls "C" [with_default (VInt 1) (fld "a" (TOpt TInt))]] []).
  vm_compute; reflexivity.
Qed.

(** C01: a keyword-only field in front of a positional one makes the generated code invalid. *)
Theorem C01_kw_only_order_refuted :
  exists P, rt P "C" (VObj "C" [("b", VInt 0); ("a", VInt 1)]) = Raise (XSerde (MWrap XSyntax)).
Proof.
  exists (prog [cls "C" [with_kw_only (fld "b" TInt); fld "a" TInt]] []).
  vm_compute; reflexivity.
Qed.

(** C05, full claim: a field's own skip_if decides.  The predicate of a field of a flattened child
    replaces the one of the parent's field with the same name. *)
Theorem C05_flatten_refuted :
  exists P, let o := VObj "A" [("x", VInt 1); ("b", VObj "B" [("x", VInt 2)])] in
    to_dict P W0 [] 20 o None None None false = Ok (dict [("X", VInt 2)]) /\
    exists d f p, In d (p_classes P) /\ c_name d = "A" /\ In f (c_fields d) /\ f_name f = "x" /\
      f_skip_if f = Some p /\ p (VInt 1) = Ok false.
Proof.
  exists (prog [cls "B" [with_skip_if (Some (fun _ => Ok true)) false None None (with_names (Some "X") [] (fld "x" TInt))];
                cls "A" [with_skip_if (Some (fun _ => Ok false)) false None None (fld "x" TInt); flat (fld "b" (TClass "B"))]] []).
  split; [vm_compute; reflexivity|].
  eexists. eexists. eexists. split; [right; left; reflexivity|].
  split; [reflexivity|]. split; [left; reflexivity|]. repeat split.
Qed.
