(** serde/json.py, yaml.py, toml.py, msgpack.py, pickle.py: options passed to to_dict / from_dict and
    the number hooks.  The parsers and printers are third party code: a [codec] is an arbitrary pair
    of functions between Python data and text (or bytes). *)
From Coq Require Import String List ZArith Bool Ascii.
From Verif Require Import Base PyVal PyType Program Compat Syntax SeRender DeRender Eval.
Import ListNotations.
Open Scope string_scope.
Open Scope list_scope.

Record codec := mkCodec { dumps : pyval -> res string; loads : string -> res pyval }.

(** MsgPack extension types: packb(ExtType(code, data)), and unpackb, whose result is no ExtType if None. *)
Record ext_codec := mkExtCodec { ext_dumps : Z -> string -> res string; ext_loads : string -> res (option (Z * string)) }.

Section Formats.
  Variables (P : program) (W : world) (K : list (tagging * pytype)).

  (** float(v) of an int or float instance *)
  Definition num_float (v : pyval) : option (res pyval) :=
    if isinst_prim P v PBool then None
    else if isinst_prim P v PInt || isinst_prim P v PFloat then Some (prim_ctor P W PFloat v)
    else None.

  (** json.py:57-69 *)
  Definition deserialize_json_numbers (v : pyval) : res pyval :=
    match num_float v with Some r => r | None => Raise (XSerde MNumber) end.

  (** yaml.py:33-52 *)
  Definition deserialize_yaml_numbers (v : pyval) : res pyval :=
    match num_float v with
    | Some r => r
    | None =>
      if isinst_prim P v PStr then
        match prim_ctor P W PFloat v with
        | Raise XValue => Raise (XSerde MNumber)
        | r => r
        end
      else Raise (XSerde MNumber)
    end.

  (** json.py:72-106 with the default options *)
  Definition to_json (J : codec) (n : nat) (o : pyval) (c : option (tagging * pytype)) (skip_none : bool) : res string :=
    d <- to_dict P W K n o c (Some false) (Some true) skip_none ;; dumps J d.
  (** json.py:129-160 *)
  Definition from_json (J : codec) (n : nat) (c : tagging * pytype) (s : string) (coerce_numbers : bool) : res pyval :=
    d <- loads J s ;;
    from_dict P W K n c d (Some false) (if coerce_numbers then Some deserialize_json_numbers else None).

  (** yaml.py:55-83, 106-135 *)
  Definition to_yaml := to_json.
  Definition from_yaml (J : codec) (n : nat) (c : tagging * pytype) (s : string) (coerce_numbers : bool) : res pyval :=
    d <- loads J s ;;
    from_dict P W K n c d (Some false) (if coerce_numbers then Some deserialize_yaml_numbers else None).

  (** toml.py:40-68, 84-94; skip_none is True unless given *)
  Definition to_toml := to_json.
  Definition from_toml (J : codec) (n : nat) (c : tagging * pytype) (s : string) : res pyval :=
    d <- loads J s ;; from_dict P W K n c d (Some false) None.

  (** msgpack.py:45-84, 109-138, without ext_dict; with it below *)
  Definition to_msgpack (J : codec) (n : nat) (o : pyval) (c : option (tagging * pytype)) (named : bool) : res string :=
    d <- (if named then to_dict P W K n o c (Some false) (Some true) false
          else to_tuple P W K n o c (Some false) (Some true) false) ;;
    dumps J d.
  Definition from_msgpack (J : codec) (n : nat) (c : tagging * pytype) (s : string) (named : bool) : res pyval :=
    d <- loads J s ;;
    if named then from_dict P W K n c d (Some false) None else from_tuple P W K n c d (Some false) None.

  (** msgpack.py:22-34, 70-84 with ext_dict.  Its keys are classes here: for an object that is not an instance of a
      dataclass there is no code. *)
  Definition ext_code (ext : list (string * Z)) (o : pyval) : option Z :=
    match o with VObj c _ => slookup c ext | _ => None end.
  Definition to_msgpack_ext (J : codec) (E : ext_codec) (n : nat) (o : pyval) (c : option (tagging * pytype)) (named : bool)
      (ext : list (string * Z)) : res string :=
    code <- of_option (XSerde (MText "Could not find type code")) (ext_code ext o) ;;
    s <- to_msgpack J n o c named ;; ext_dumps E code s.

  (** msgpack.py:129-135 *)
  Definition ext_type (ext : list (Z * (tagging * pytype))) (code : Z) : option (tagging * pytype) :=
    option_map snd (find (fun x => Z.eqb (fst x) code) ext).
  Definition from_msgpack_ext (J : codec) (E : ext_codec) (n : nat) (c : tagging * pytype) (s : string) (named : bool)
      (ext : list (Z * (tagging * pytype))) : res pyval :=
    x <- ext_loads E s ;;
    x <- of_option XAttr x ;;
    t <- of_option (XSerde (MText "Could not find type for code")) (ext_type ext (fst x)) ;;
    from_msgpack J n t (snd x) named.

  (** pickle.py:27-38: skip_none is accepted and ignored *)
  Definition to_pickle (J : codec) (n : nat) (o : pyval) (c : option (tagging * pytype)) (skip_none : bool) : res string :=
    d <- to_dict P W K n o c (Some false) (Some true) false ;; dumps J d.
  Definition from_pickle := from_toml.
End Formats.
