(** What the user wrote: classes, enums, options, custom functions; and the parts of the Python
    runtime the model does not define. *)
From Coq Require Import String List ZArith Bool Ascii.
From Verif Require Import Base PyVal PyType.
Import ListNotations.
Open Scope string_scope.
Open Scope list_scope.

(** Enum classes.  [e_mixin]: primitive mixed in (IntEnum, StrEnum, class E(float, Enum)).
    Flag classes with composite members are not modelled. *)
Record enumdef := mkEnum {
  e_id : string;
  e_name : string;
  e_mixin : option prim;
  e_members : list (string * pyval)
}.

(** Default of a field: a value or a factory (its outcome when called). *)
Inductive defval := DVal (v : pyval) | DFact (r : res pyval).

(** serializer= / deserializer= of a field (core.py:607-608).  [FDefault] is the marker
    default_serializer / default_deserializer (se.py:126, de.py:144). *)
Inductive ffun := FDefault | FFun (f : pyval -> res pyval).

(** A dataclass field with the options of serde.field (core.py:596-646). *)
Record fielddef := mkField {
  f_name : string;
  f_type : pytype;
  f_default : option defval;
  f_init : bool;
  f_kw_only : bool;
  f_rename : option string;
  f_alias : list string;
  f_skip : bool;
  f_skip_se : bool;
  f_skip_de : bool;
  f_skip_if : option (pyval -> res bool);
  f_skip_if_false : bool;
  f_skip_if_none : option bool;
  f_skip_if_default : option bool;
  f_serializer : option ffun;
  f_deserializer : option ffun;
  f_flatten : bool
}.

(** ClassSerializer (core.py:1217): the types its overloads are declared for and what calling
    [serialize] does. *)
Record clsser := mkClsser { cs_types : list pytype; cs_fn : pyval -> res pyval }.
(** ClassDeserializer (core.py:1236) *)
Record clsde := mkClsde { cd_types : list pytype; cd_fn : pytype -> pyval -> res pyval }.

(** core.py:959-986 *)
Inductive tagging := TagExternal | TagInternal (tag : string) | TagAdjacent (tag content : string) | Untagged.
(** core.py:1112-1144 *)
Inductive tcheck := TcDisabled | TcCoerce | TcStrict.

(** A dataclass and the options its (de)serialize functions were generated with
    (se.py:200-213, de.py:235-248).  For a class without decorator these are the options pyserde
    picks when it generates the functions by itself. *)
Record classdef := mkClass {
  c_id : string;
  c_name : string;
  c_fields : list fielddef;
  c_mro : list string;              (* ids of all base classes, without the class itself *)
  c_rename_all : option string;
  c_reuse : bool;                   (* reuse_instances_default *)
  c_conv : bool;                    (* convert_sets_default *)
  c_skip_if_default : bool;
  c_skip_if_none : bool;
  c_serializer : option (pytype -> pyval -> res pyval);    (* serializer= *)
  c_deserializer : option (pytype -> pyval -> res pyval);  (* deserializer= *)
  c_tagging : tagging;
  c_check : tcheck;
  c_ser_class_var : bool;
  c_class_vars : list (string * pytype * pyval);
  c_transparent : bool;
  c_class_ser : option clsser;
  c_class_de : option clsde;
  c_deny : bool;
  c_tvars : option (list string);   (* get_type_var_names, compat.py:1084 *)
  c_post : pyval -> res pyval;      (* __post_init__ *)
  c_hashable : bool
}.

Record program := mkProgram {
  p_classes : list classdef;
  p_enums : list enumdef;
  p_sers : list clsser;      (* GLOBAL_CLASS_SERIALIZER in order of registration *)
  p_des : list clsde;        (* GLOBAL_CLASS_DESERIALIZER in order of registration *)
  p_sub : string -> string -> bool  (* proper subclass relation of str-serializable, datetime,
                                       primitive-subclass and other classes *)
}.

(** Parts of the runtime left abstract.  They are arbitrary functions; theorems that need more
    state it as hypothesis. *)
Record world := mkWorld {
  w_case : string -> string -> option string;   (* casefy.<case>(name); None: unknown case *)
  w_ctor : string -> pyval -> res pyval;         (* constructor of a StrSerializableTypes class *)
  w_iso : string -> pyval -> res pyval;          (* <datetime class>.fromisoformat *)
  w_float_of_str : string -> option pyfloat;     (* float(str) *)
  w_int_of_str : string -> option Z;             (* int(str) *)
  w_str : pyval -> string;                       (* str(v) where not defined by the model *)
  w_pick : pyval -> option nat                   (* element of a container beartype looks at *)
}.

Fixpoint find_class (l : list classdef) (c : string) : option classdef :=
  match l with
  | [] => None
  | d :: r => if String.eqb (c_id d) c then Some d else find_class r c
  end.
Definition get_class (P : program) (c : string) : option classdef := find_class (p_classes P) c.

Fixpoint find_enum (l : list enumdef) (c : string) : option enumdef :=
  match l with
  | [] => None
  | d :: r => if String.eqb (e_id d) c then Some d else find_enum r c
  end.
Definition get_enum (P : program) (c : string) : option enumdef := find_enum (p_enums P) c.

Definition enum_member (P : program) (c m : string) : option pyval :=
  match get_enum P c with
  | Some d => slookup m (e_members d)
  | None => None
  end.

(** Primitive value of a primitive Python value (one level of subclassing). *)
Definition base_scalar (v : pyval) : option scal := scalar (fun _ _ => None) v.

(** The primitive an enum member is equal to when its class mixes in a primitive. *)
Definition enum_scalar (P : program) (c m : string) : option scal :=
  match get_enum P c with
  | Some d =>
    match e_mixin d, slookup m (e_members d) with
    | Some _, Some v => base_scalar v
    | _, _ => None
    end
  | None => None
  end.

Definition eqv (P : program) : pyval -> pyval -> bool := py_eqb (enum_scalar P).
Definition scal_of (P : program) : pyval -> option scal := scalar (enum_scalar P).

(** Subclass relation of the named classes. *)
Definition issub (P : program) (a b : string) : bool := String.eqb a b || p_sub P a b.

(** isinstance(obj, cls) for a dataclass *)
Definition obj_isa (P : program) (c d : string) : bool :=
  String.eqb c d ||
  match get_class P c with Some cd => smem d (c_mro cd) | None => false end.

Definition prim_of_mixin (P : program) (c : string) : option prim :=
  match get_enum P c with Some d => e_mixin d | None => None end.

(** issubclass(p, q) for the four primitives: bool is a subclass of int. *)
Definition prim_le (p q : prim) : bool :=
  prim_eqb p q || match p, q with PBool, PInt => true | _, _ => false end.

(** The primitive class of which the value is an instance, if any. *)
Fixpoint prim_class (P : program) (v : pyval) : option prim :=
  match v with
  | VBool _ => Some PBool
  | VInt _ => Some PInt
  | VFloat _ => Some PFloat
  | VStr _ => Some PStr
  | VSub _ v => prim_class P v
  | VEnum c _ => prim_of_mixin P c
  | _ => None
  end.

(** isinstance(v, p) *)
Definition isinst_prim (P : program) (v : pyval) (p : prim) : bool :=
  match prim_class P v with Some q => prim_le q p | None => false end.

(** hash(v) does not raise *)
Fixpoint hashable (P : program) (v : pyval) : bool :=
  match v with
  | VSeq KTuple l => forallb (hashable P) l
  | VSeq KFrozen _ => true
  | VSeq _ _ => false
  | VMap _ _ => false
  | VObj c _ => match get_class P c with Some d => c_hashable d | None => false end
  | _ => true
  end.

(** str(v) *)
Definition py_str (P : program) (W : world) (v : pyval) : string :=
  match v with
  | VNone => "None"
  | VBool b => if b then "True" else "False"
  | VInt z => z_str z
  | VStr s => s
  | VSub _ (VStr s) => s
  | VInst _ s => s
  | _ => w_str W v
  end.
