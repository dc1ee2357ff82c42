(** What users rely on, stated without reference to generated code: which annotations, classes and
    values belong to the supported fragment ([tyok], [frag_class], [wt]), what the serialized form of a
    value is ([Wire]) and which data is accepted as form of a value ([Acc]). *)
From Coq Require Import String List ZArith Bool Ascii.
From Verif Require Import Base PyVal PyType Program Compat.
Import ListNotations.
Open Scope string_scope.
Open Scope list_scope.

Inductive Forall3 {A B C} (R : A -> B -> C -> Prop) : list A -> list B -> list C -> Prop :=
| F3_nil : Forall3 R [] [] []
| F3_cons a b c la lb lc : R a b c -> Forall3 R la lb lc -> Forall3 R (a :: la) (b :: lb) (c :: lc).

Section Spec.
  Variables (P : program) (W : world).

  (** * Names *)

  (** Key of a field in the serialized mapping: rename, else rename_all of the name, else the name. *)
  Definition wire_name (d : classdef) (f : fielddef) : option string :=
    match f_rename f with
    | Some (String a r) => Some (String a r)
    | _ => match c_rename_all d with
           | Some (String a r) => w_case W (String a r) (f_name f)
           | _ => Some (f_name f)
           end
    end.

  (** rename_all names a known case *)
  Definition case_known (d : classdef) (f : fielddef) : Prop :=
    match c_rename_all d with
    | Some (String a r) => w_case W (String a r) (f_name f) <> None
    | _ => True
    end.

  (** * Fields *)

  (** The field is written / read. *)
  Definition written (f : fielddef) : bool := negb (f_skip f) && negb (f_skip_se f).
  Definition read (f : fielddef) : bool := f_init f && negb (f_skip f) && negb (f_skip_de f).

  Definition dflt (f : fielddef) : option (res pyval) :=
    match f_default f with
    | Some (DVal v) => Some (Ok v)
    | Some (DFact r) => Some r
    | None => None
    end.

  (** A union with None, None, or a PEP 695 alias of those *)
  Fixpoint nullable (t : pytype) : bool :=
    match t with
    | TNone => true
    | TUnion l => existsb is_none l
    | TAlias _ a => nullable a
    | _ => false
    end.

  (** Value of a field that is read from a mapping without its key. *)
  Definition absent_ok (f : fielddef) (v : pyval) : Prop :=
    match dflt f with
    | Some r => r = Ok v
    | None => nullable (f_type f) = true /\ v = VNone /\ f_deserializer f = None
    end.

  (** The field has functions of its own for both directions, or for none. *)
  Definition paired (f : fielddef) : Prop :=
    f_serializer f = None /\ f_deserializer f = None \/
    exists g h, f_serializer f = Some (FFun g) /\ f_deserializer f = Some (FFun h).
  (** What the functions of the field do *)
  Definition coded (f : fielddef) (v x : pyval) : Prop := exists g, f_serializer f = Some (FFun g) /\ g v = Ok x.
  Definition decoded (f : fielddef) (x v : pyval) : Prop := exists h, f_deserializer f = Some (FFun h) /\ h x = Ok v.

  (** * Types *)

  (** t' is t or one of its type arguments, at any depth *)
  Inductive sub_ty : pytype -> pytype -> Prop :=
  | sub_refl t : sub_ty t t
  | sub_union t l a : In a l -> sub_ty t a -> sub_ty t (TUnion l)
  | sub_list t k a : sub_ty t a -> sub_ty t (TList k a)
  | sub_set t k a : sub_ty t a -> sub_ty t (TSet k a)
  | sub_deque t a : sub_ty t a -> sub_ty t (TDeque a)
  | sub_counter t a : sub_ty t a -> sub_ty t (TCounter a)
  | sub_dict_k t k a b : sub_ty t a -> sub_ty t (TDict k a b)
  | sub_dict_v t k a b : sub_ty t b -> sub_ty t (TDict k a b)
  | sub_tuple t l a : In a l -> sub_ty t a -> sub_ty t (TTuple l)
  | sub_vartuple t a : sub_ty t a -> sub_ty t (TVarTuple a)
  | sub_alias t n a : sub_ty t a -> sub_ty t (TAlias n a).

  (** Types a class refers to, directly or through the classes of its fields. *)
  Inductive reach (d : classdef) : pytype -> Prop :=
  | reach_self : reach d (TClass (c_id d))
  | reach_field f t : In f (c_fields d) -> f_skip f = false -> sub_ty t (f_type f) -> reach d t
  | reach_class c d' f t :
      reach d (TClass c) -> get_class P c = Some d' ->
      In f (c_fields d') -> f_skip f = false -> sub_ty t (f_type f) -> reach d t.

  (** Types that generated code refers to by name. *)
  Definition nominal (t : pytype) : bool :=
    match t with
    | TPrimSub _ _ | TEnum _ | TClass _ | TGen _ _ | TVar _ | TStr _ | TDate _ | TOther _
    | TNone | TAny | TLit _ | TClassVar _ => true
    | _ => false
    end.

  (** No two types the class refers to have the same name ... *)
  Definition names_ok (d : classdef) : Prop :=
    forall t t', reach d t -> reach d t' -> nominal t = true -> nominal t' = true ->
      typename P t = typename P t' -> t = t'.
  (** ... and no two unions or literals the same function name (see C37). *)
  Definition unions_ok (d : classdef) : Prop :=
    forall pre l l', reach d (TUnion l) -> reach d (TUnion l') ->
      union_func_name P pre l = union_func_name P pre l' -> l = l'.
  Definition literals_ok (d : classdef) : Prop :=
    forall l l', reach d (TLit l) -> reach d (TLit l') ->
      literal_func_name P l = literal_func_name P l' -> l = l'.

  (** Python == distinguishes all elements. *)
  Definition distinct (l : list pyval) : Prop := ForallOrdPairs (fun a b => eqv P a b = false) l.

  (** Enums with plain, pairwise different values *)
  Definition scalar_val (v : pyval) : bool :=
    match v with VNone | VBool _ | VInt _ | VFloat _ | VStr _ => true | _ => false end.
  Definition enum_wf (c : string) : Prop :=
    exists e, get_enum P c = Some e /\ NoDup (map fst (e_members e)) /\
      (forall m v, In (m, v) (e_members e) -> scalar_val v = true /\ eqv P v v = true) /\
      (forall m v m' v', In (m, v) (e_members e) -> In (m', v') (e_members e) -> eqv P v v' = true -> m = m').

  (** Types of dict keys and set elements *)
  Fixpoint keyty (t : pytype) : bool :=
    match t with
    | TPrim _ | TPrimSub _ _ | TNewType _ _ | TEnum _ | TStr _ | TDate _ => true
    | TAlias _ a => keyty a
    | _ => false
    end.

  (** Types for which aliases are honoured (see C22). *)
  Fixpoint scalar_ty (t : pytype) : bool :=
    match t with
    | TPrim _ | TPrimSub _ _ | TNewType _ _ | TEnum _ => true
    | TUnion [a; TNone] => negb (is_none a) && scalar_ty a
    | TAlias _ a => scalar_ty a
    | _ => false
    end.

  (** A value other than None is never written as None. *)
  Fixpoint nonnull (t : pytype) : bool :=
    match t with
    | TUnion l => forallb nonnull l
    | TAlias _ a => nonnull a
    | TClass c => match get_class P c with Some d => negb (c_transparent d) | None => true end
    | TEnum c => match get_enum P c with
                 | Some e => forallb (fun nv => match snd nv with VNone => false | _ => true end) (e_members e)
                 | None => true
                 end
    | _ => true
    end.

  Fixpoint has_lit (t : pytype) : bool :=
    match t with
    | TLit _ => true
    | TUnion l | TTuple l | TGen _ l => existsb has_lit l
    | TList _ a | TSet _ a | TDeque a | TCounter a | TVarTuple a | TClassVar a | TAlias _ a => has_lit a
    | TDict _ a b => has_lit a || has_lit b
    | _ => false
    end.

  (** Literal values whose text can be put into a message. *)
  Fixpoint no_quotes (s : string) : bool :=
    match s with
    | EmptyString => true
    | String a r => negb (Ascii.eqb a """" || Ascii.eqb a "'") && no_quotes r
    end.
  Definition lit_arg_ok (x : litval) : bool :=
    match x with LEnum _ _ => false | LStr s => no_quotes s | _ => true end.

  Definition key_names (d : classdef) (f : fielddef) : list string :=
    match wire_name d f with Some k => k :: f_alias f | None => f_alias f end.

  (** The class whose fields a flattened field stands for *)
  Definition kid (f : fielddef) : option classdef :=
    if f_flatten f then match f_type f with TClass c => get_class P c | _ => None end else None.
  (** Keys under which a field, or what it stands for, is written ... *)
  Definition out_names (d : classdef) (f : fielddef) : list (option string) :=
    match kid f with
    | Some d' => map (wire_name d') (c_fields d')
    | None => [wire_name d f]
    end.
  (** ... and read *)
  Definition entry_keys (d : classdef) (f : fielddef) : list string :=
    match kid f with
    | Some d' => concat (map (key_names d') (c_fields d'))
    | None => key_names d f
    end.

  (** Default factories that are builtin names *)
  Definition factory_of (t : pytype) : option string :=
    match t with
    | TPrim p => Some (prim_name p)
    | TList LList _ | TBare (BList LList) => Some "list"
    | TSet SkSet _ | TBare (BSet SkSet) => Some "set"
    | TSet SkFrozen _ => Some "frozenset"
    | TDict DkDict _ _ | TBare (BDict DkDict) => Some "dict"
    | TDeque _ | TBare BDeque => Some "deque"
    | TCounter _ | TBare BCounter => Some "Counter"
    | TTuple _ | TVarTuple _ | TBare BTuple => Some "tuple"
    | _ => None
    end.

  (** Containers, and those that are written as mappings *)
  Definition bulk (t : pytype) : bool :=
    match t with
    | TList _ _ | TSet _ _ | TDeque _ | TCounter _ | TDict _ _ _ | TTuple _ | TVarTuple _ => true
    | _ => false
    end.
  Definition mapping (t : pytype) : bool :=
    match t with TCounter _ | TDict _ _ _ => true | _ => false end.
  (** Element types of containers that are members of unions: everything but frozensets, literals, aliases
      and unions other than Optional (frozensets: see C46). *)
  Fixpoint carrier (t : pytype) : Prop :=
    match t with
    | TPrim _ | TNewType _ _ | TAny | TClass _ | TStr _ | TDate _ => True
    | TPrimSub _ p => p <> PBool
    | TUnion [a; TNone] => is_none a = false /\ carrier a
    | TList _ a | TDeque a | TVarTuple a => carrier a
    | TSet k a => k <> SkFrozen /\ keyty a = true /\ carrier a
    | TCounter a => keyty a = true /\ carrier a
    | TDict k a b => keyty a = true /\ carrier a /\ carrier b /\ (k = DkDefault -> factory_of b <> None)
    | TTuple l => l <> [] /\ (fix all l := match l with [] => True | a :: r => carrier a /\ all r end) l
    | TBare b => b <> BSet SkFrozen /\ b <> BDict DkDefault
    | TEnum c => enum_wf c
    | _ => False
    end.

  (** Union members: primitives, None, dataclasses and containers; classes unrelated by inheritance and with
      different names; the tagging tells the classes apart; a container comes last, followed at most by None,
      and a mapping is not mixed with classes.  (A list that comes first takes the text of a str member apart,
      see C46.) *)
  Definition union_arm (t : pytype) : Prop :=
    match t with
    | TPrim _ | TNone => True
    | TClass c => lit_ok (typename P t) = true
    | _ => bulk t = true /\ carrier t /\ lit_ok (typename P t) = true
    end.
  Definition variant_ok (tg : tagging) (d : classdef) : Prop :=
    match tg with
    | TagExternal => True
    | TagInternal tag =>
        c_transparent d = false /\ c_deny d = false /\
        forall f, In f (c_fields d) -> ~ In tag (entry_keys d f)
    | TagAdjacent tag content => tag <> content
    | Untagged => False
    end.
  Definition union_ok (tg : tagging) (l : list pytype) : Prop :=
    Forall union_arm l /\
    (forall c, In (TClass c) l -> exists d, get_class P c = Some d /\ variant_ok tg d) /\
    (forall c c', In (TClass c) l -> In (TClass c') l -> c <> c' ->
       typename P (TClass c) <> typename P (TClass c') /\ obj_isa P c c' = false) /\
    (forall l1 t l2, l = l1 ++ t :: l2 -> bulk t = true -> forall u, In u l2 -> u = TNone) /\
    (forall t c, In t l -> mapping t = true -> ~ In (TClass c) l).

  (** Annotations of the fragment.  [co]: the class coerces; [tg]: its tagging. *)
  Fixpoint tyok (tg : tagging) (co : bool) (t : pytype) : Prop :=
    match t with
    | TPrim _ | TNewType _ _ | TNone | TAny | TClass _ | TStr _ | TDate _ => True
    | TPrimSub _ p => co = false /\ p <> PBool
    | TUnion l =>
        match l with
        | [a; TNone] => if is_none a then union_ok tg l else tyok tg co a
        | _ => union_ok tg l
        end
    | TList _ a | TDeque a | TVarTuple a => tyok tg co a
    | TSet _ a | TCounter a => keyty a = true /\ tyok tg co a
    | TDict k a b => keyty a = true /\ tyok tg co a /\ tyok tg co b /\ (k = DkDefault -> factory_of b <> None)
    | TTuple l => l <> [] /\ (fix all l := match l with [] => True | a :: r => tyok tg co a /\ all r end) l
    | TBare b => b <> BSet SkFrozen /\ b <> BDict DkDefault
    | TEnum c => enum_wf c
    | TLit l => forallb lit_arg_ok l = true
    | TAlias _ a => tyok tg co a /\ has_lit a = false
    | _ => False
    end.

  (** * Classes *)

  Definition coerces (d : classdef) : bool := match c_check d with TcCoerce => true | _ => false end.

  (** A skip option of the field overrides that of the class. *)
  Definition either (o : option bool) (b : bool) : bool := match o with Some x => x | None => b end.

  (** The predicate on the serialized value [x] that decides if the field is left out, when there is one:
      skip_if, skip_if_false, skip_if_default, skip_if_none, in this order. *)
  Definition drops (d : classdef) (f : fielddef) (x : pyval) : option (res bool) :=
    match f_skip_if f with
    | Some p => Some (p x)
    | None =>
        if f_skip_if_false f then Some (Ok (negb (truthy (enum_scalar P) x)))
        else if either (f_skip_if_default f) (c_skip_if_default d) then
          Some match dflt f with
               | Some r => v <- r ;; Ok (eqv P x v)
               | None => Ok false
               end
        else if either (f_skip_if_none f) (c_skip_if_none d) then
          Some (Ok match x with VNone => true | _ => false end)
        else None
    end.
  Definition no_skip (d : classdef) (f : fielddef) : Prop := forall x, drops d f x = None.

  (** skip_if_default compares with a value that can be computed and is no object of a dataclass. *)
  Definition skip_ok (d : classdef) (f : fielddef) : Prop :=
    either (f_skip_if_default f) (c_skip_if_default d) = true ->
    forall r, dflt f = Some r -> exists v, r = Ok v /\ forall c l, v <> VObj c l.

  Definition field_ok (d : classdef) (f : fielddef) : Prop :=
    paired f /\ (f_serializer f <> None -> f_alias f = [] /\ f_flatten f = false) /\
    skip_ok d f /\
    (written f || read f = true -> tyok (c_tagging d) (coerces d) (f_type f)) /\
    (exists k, wire_name d f = Some k /\ lit_ok k = true) /\ case_known d f /\
    (f_alias f = [] \/
     scalar_ty (f_type f) = true /\ wire_name d f = Some (f_name f) /\ forallb lit_ok (f_alias f) = true) /\
    (read f = false -> exists v, dflt f = Some (Ok v)).

  (** A field of the flattened class [d'] of a field of [d] *)
  Definition kid_field_ok (d d' : classdef) (g : fielddef) : Prop :=
    field_ok d' g /\ f_flatten g = false /\ written g = true /\ read g = true /\ f_alias g = [] /\
    wire_name d g = wire_name d' g /\ case_known d g /\ tyok (c_tagging d) (coerces d) (f_type g) /\
    no_skip d' g /\ f_serializer g = None.

  (** Flattened fields: a dataclass without default, all of whose fields are written and read, none
      under a skip predicate, with the same names and the same tagging as fields of [d] itself would be.  (See C13 for what happens
      otherwise.) *)
  Definition flat_ok (d : classdef) (f : fielddef) : Prop :=
    exists c d', f_type f = TClass c /\ get_class P c = Some d' /\ c <> c_id d /\
      written f = true /\ read f = true /\ f_default f = None /\
      c_transparent d' = false /\ c_tagging d' = c_tagging d /\ (c_deny d' = true -> c_deny d = true) /\
      c_ser_class_var d' = false /\
      c_fields d' <> [] /\ Forall (kid_field_ok d d') (c_fields d') /\ no_skip d f.

  Definition frag_field (d : classdef) (f : fielddef) : Prop :=
    field_ok d f /\ (f_flatten f = true -> flat_ok d f).

  (** Keyword-only fields come after the positional ones (up to the first field that is not read:
      from there on everything is passed by keyword). *)
  Fixpoint kw_sorted (l : list fielddef) : Prop :=
    match l with
    | [] => True
    | f :: r =>
        if read f then
          (f_kw_only f = true ->
             (fix kws l := match l with
              | [] => True
              | g :: r => if read g then f_kw_only g = true /\ kws r else True
              end) r) /\ kw_sorted r
        else True
    end.

  Definition frag_class (d : classdef) : Prop :=
    c_serializer d = None /\ c_deserializer d = None /\ c_class_ser d = None /\ c_class_de d = None /\
    c_ser_class_var d = false /\
    NoDup (map f_name (c_fields d)) /\
    Forall (frag_field d) (c_fields d) /\
    NoDup (concat (map (out_names d) (c_fields d))) /\
    (forall f g a, In f (c_fields d) -> In g (c_fields d) -> In a (f_alias f) -> ~ In (Some a) (out_names d g)) /\
    kw_sorted (c_fields d) /\
    names_ok d /\ unions_ok d /\ literals_ok d /\
    (c_transparent d = true -> exists f, c_fields d = [f] /\ written f = true /\ read f = true /\ f_flatten f = false /\ f_serializer f = None).

  (** Classes usable with to_tuple / from_tuple *)
  Definition tuple_class (d : classdef) : Prop :=
    Forall (fun f => written f = true /\ read f = true /\ f_kw_only f = false /\ f_alias f = [] /\ f_flatten f = false) (c_fields d).

  (** * Values *)

  Definition prim_val (p : prim) (v : pyval) : bool :=
    match p, v with
    | PInt, VInt _ | PFloat, VFloat _ | PBool, VBool _ | PStr, VStr _ => true
    | _, _ => false
    end.

  (** Data that needs no conversion *)
  Fixpoint plain (v : pyval) : bool :=
    match v with
    | VNone | VBool _ | VInt _ | VFloat _ | VStr _ => true
    | VSeq (KList | KTuple) l => forallb plain l
    | VMap MDict l => forallb (fun kv => match kv with (a, b) => plain a && plain b end) l
    | _ => false
    end.

  (** Immutable data: what an unsubscripted set may contain *)
  Fixpoint frozen (v : pyval) : bool :=
    match v with
    | VNone | VBool _ | VInt _ | VFloat _ | VStr _ => true
    | VSeq KTuple l => forallb frozen l
    | _ => false
    end.

  Definition set_kind (k : setk) : seqkind := match k with SkFrozen => KFrozen | _ => KSet end.
  Definition dict_kind (k : dictk) (vt : pytype) (m : mapkind) : Prop :=
    match k with
    | DkDefault => match factory_of vt with Some f => m = MDefault f | None => False end
    | _ => m = MDict
    end.
  Definition bare_val (raw : pyval -> Prop) (b : bare) (v : pyval) : Prop :=
    match b, v with
    | BList _, VSeq KList l | BTuple, VSeq KTuple l | BDeque, VSeq KDeque l => Forall raw l
    | BDict (DkDict | DkMapping | DkMutMapping), VMap MDict _ => raw v
    | BSet (SkSet | SkAbs | SkMut), VSeq KSet l => Forall raw l /\ distinct l /\ forallb frozen l = true
    | BCounter, VMap MCounter l => raw (VMap MDict l)
    | _, _ => False
    end.

  (** * Serialized form *)

  (** How the form [x] of a class called [name] appears in a union. *)
  Definition tagged (tg : tagging) (name : string) (x y : pyval) : Prop :=
    match tg with
    | TagExternal => y = VMap MDict [(VStr name, x)]
    | TagInternal tag => exists l, x = VMap MDict l /\ y = VMap MDict (l ++ [(VStr tag, VStr name)])
    | TagAdjacent tag content => y = VMap MDict [(VStr content, x); (VStr tag, VStr name)]
    | Untagged => y = x
    end.

  Definition is_class_ty (t : pytype) : bool := match t with TClass _ => true | _ => false end.

  Section Wire.
    Variables (reuse conv skip : bool).

    (** [Wire nm tg v t x]: [x] is the form of [v] as a [t]; [nm]: mappings (to_dict) or tuples (to_tuple)
        for classes; [tg]: tagging of the class whose field is written. *)
    Inductive Wire : bool -> tagging -> pyval -> pytype -> pyval -> Prop :=
    | W_prim nm tg p v : prim_val p v = true -> Wire nm tg v (TPrim p) v
    | W_sub nm tg n p v : prim_val p v = true -> Wire nm tg (VSub n v) (TPrimSub n p) (VSub n v)
    | W_new nm tg n p v : prim_val p v = true -> Wire nm tg v (TNewType n p) v
    | W_none nm tg : Wire nm tg VNone TNone VNone
    | W_any nm tg v : Wire nm tg v TAny v
    | W_opt_none nm tg a : is_none a = false -> Wire nm tg VNone (TUnion [a; TNone]) VNone
    | W_opt_some nm tg a v x : is_none a = false -> v <> VNone -> Wire nm tg v a x -> Wire nm tg v (TUnion [a; TNone]) x
    | W_union_other nm tg l t v x :
        is_opt (TUnion l) = false -> In t l -> is_class_ty t = false -> Wire true tg v t x -> Wire nm tg v (TUnion l) x
    | W_union_class nm tg l c v x y :
        is_opt (TUnion l) = false -> In (TClass c) l -> Wire true tg v (TClass c) x ->
        tagged tg (typename P (TClass c)) x y -> Wire nm tg v (TUnion l) y
    | W_list nm tg k a l l' : Forall2 (fun x y => Wire nm tg x a y) l l' -> Wire nm tg (VSeq KList l) (TList k a) (VSeq KList l')
    | W_set nm tg s k a l l' : Forall2 (fun x y => Wire nm tg x a y) l l' ->
        Wire nm tg (VSeq s l) (TSet k a) (VSeq (if conv then KList else KSet) l')
    | W_deque nm tg a l l' : Forall2 (fun x y => Wire nm tg x a y) l l' -> Wire nm tg (VSeq KDeque l) (TDeque a) (VSeq KList l')
    | W_vartuple nm tg a l l' : Forall2 (fun x y => Wire nm tg x a y) l l' -> Wire nm tg (VSeq KTuple l) (TVarTuple a) (VSeq KTuple l')
    | W_tuple nm tg ts l l' : Forall3 (fun t x y => Wire nm tg x t y) ts l l' -> Wire nm tg (VSeq KTuple l) (TTuple ts) (VSeq KTuple l')
    | W_counter nm tg a l l' : Forall2 (fun kv kv' => Wire nm tg (fst kv) a (fst kv') /\ snd kv' = snd kv) l l' ->
        Wire nm tg (VMap MCounter l) (TCounter a) (VMap MDict l')
    | W_dict nm tg m k a b l l' : Forall2 (fun kv kv' => Wire nm tg (fst kv) a (fst kv') /\ Wire nm tg (snd kv) b (snd kv')) l l' ->
        Wire nm tg (VMap m l) (TDict k a b) (VMap MDict l')
    | W_bare_list nm tg k l : Wire nm tg (VSeq KList l) (TBare (BList k)) (VSeq KList l)
    | W_bare_set nm tg k s l : Wire nm tg (VSeq s l) (TBare (BSet k)) (VSeq (if conv then KList else s) l)
    | W_bare_dict nm tg k v : Wire nm tg v (TBare (BDict k)) v
    | W_bare_tuple nm tg v : Wire nm tg v (TBare BTuple) v
    | W_bare_deque nm tg l : Wire nm tg (VSeq KDeque l) (TBare BDeque) (VSeq KList l)
    | W_bare_counter nm tg l : Wire nm tg (VMap MCounter l) (TBare BCounter) (VMap MDict l)
    | W_enum nm tg c m x : enum_member P c m = Some x -> Wire nm tg (VEnum c m) (TEnum c) x
    | W_lit nm tg l v : Wire nm tg v (TLit l) v
    | W_str nm tg k s : Wire nm tg (VInst k s) (TStr k) (if reuse then VInst k s else VStr s)
    | W_date nm tg k s : Wire nm tg (VDate k s) (TDate k) (if reuse then VDate k s else VStr s)
    | W_alias nm tg n a v x : Wire nm tg v a x -> Wire nm tg v (TAlias n a) x
    | W_obj tg c d attrs outs :
        get_class P c = Some d -> c_transparent d = false ->
        Forall3 (fun f nv out =>
          (written f = false /\ out = []) \/
          (written f = true /\ f_flatten f = false /\ exists k x, wire_name d f = Some k /\
             (f_serializer f = None /\ Wire true (c_tagging d) (snd nv) (f_type f) x \/ coded f (snd nv) x) /\
             match drops d f x with
             | Some r => exists b, r = Ok b /\ out = if (b : bool) then [] else [(VStr k, x)]
             | None => skip = true /\ x = VNone /\ out = [] \/ (skip = false \/ x <> VNone) /\ out = [(VStr k, x)]
             end) \/
          (* the entries of the flattened object take the place of the field; skip_none has no effect
             on them unless there is only one *)
          (f_flatten f = true /\ exists d' c' attrs' l, kid f = Some d' /\ snd nv = VObj c' attrs' /\
             Forall3 (fun g nv' kv => exists k x, wire_name d' g = Some k /\ Wire true (c_tagging d) (snd nv') (f_type g) x /\
                kv = (VStr k, x)) (c_fields d') attrs' l /\
             (skip = true /\ map snd l = [VNone] /\ out = [] \/ (skip = false \/ map snd l <> [VNone]) /\ out = l)))
          (c_fields d) attrs outs ->
        Wire true tg (VObj c attrs) (TClass c) (VMap MDict (concat outs))
    | W_obj_tuple tg c d attrs outs :
        get_class P c = Some d -> c_transparent d = false ->
        Forall3 (fun f nv out =>
          (written f = false /\ out = []) \/
          (written f = true /\ f_flatten f = false /\ exists x,
             (f_serializer f = None /\ Wire false (c_tagging d) (snd nv) (f_type f) x \/ coded f (snd nv) x) /\ out = [x]) \/
          (f_flatten f = true /\ exists d' c' attrs', kid f = Some d' /\ snd nv = VObj c' attrs' /\
             Forall3 (fun g nv' x => Wire false (c_tagging d) (snd nv') (f_type g) x) (c_fields d') attrs' out))
          (c_fields d) attrs outs ->
        Wire false tg (VObj c attrs) (TClass c) (VSeq KTuple (concat outs))
    | W_obj_transparent nm tg c d f n v x :
        get_class P c = Some d -> c_transparent d = true -> c_fields d = [f] -> n = f_name f ->
        Wire nm (c_tagging d) v (f_type f) x ->
        Wire nm tg (VObj c [(n, v)]) (TClass c) x.
  End Wire.

  (** The form of the field [f] of [d] with value [v]: that of its type, or what its serializer returns *)
  Definition FWire (reuse conv skip nm : bool) (d : classdef) (f : fielddef) (v x : pyval) : Prop :=
    f_serializer f = None /\ Wire reuse conv skip nm (c_tagging d) v (f_type f) x \/ coded f v x.

  (** * Well typed values *)

  (** The skip predicate of the field, if there is one, gives an answer for [v] in whatever form, and lets
      a field that is read be left out only if it is restored to [v]. *)
  Definition safe_skip (d : classdef) (f : fielddef) (v : pyval) : Prop :=
    forall reuse conv skip x, FWire reuse conv skip true d f v x ->
      match drops d f x with
      | Some r => exists b, r = Ok b /\ (b = true -> read f = true -> absent_ok f v)
      | None => True
      end.

  Section Typing.
    (** [sk]: values are to survive skip_none=True; [Q]: further conditions on the classes involved;
        [raw]: condition on data without a type (Any, unsubscripted containers) *)
    Variables (sk : bool) (Q : classdef -> Prop) (raw : pyval -> Prop).

    (** [wt v t]: [v] is a value of the annotation [t], of exactly the classes it names. *)
    Inductive wt : pyval -> pytype -> Prop :=
    | wt_prim p v : prim_val p v = true -> wt v (TPrim p)
    | wt_sub n p v : prim_val p v = true -> wt (VSub n v) (TPrimSub n p)
    | wt_new n p v : prim_val p v = true -> wt v (TNewType n p)
    | wt_none : wt VNone TNone
    | wt_any v : plain v = true -> raw v -> wt v TAny
    | wt_opt_none a : is_none a = false -> wt VNone (TUnion [a; TNone])
    | wt_opt_some a v : is_none a = false -> v <> VNone -> nonnull a = true -> wt v a -> wt v (TUnion [a; TNone])
    | wt_union l t v : is_opt (TUnion l) = false -> In t l -> wt v t -> wt v (TUnion l)
    | wt_list k a l : Forall (fun x => wt x a) l -> wt (VSeq KList l) (TList k a)
    | wt_set k a l : Forall (fun x => wt x a) l -> distinct l -> wt (VSeq (set_kind k) l) (TSet k a)
    | wt_deque a l : Forall (fun x => wt x a) l -> wt (VSeq KDeque l) (TDeque a)
    | wt_vartuple a l : Forall (fun x => wt x a) l -> wt (VSeq KTuple l) (TVarTuple a)
    | wt_tuple ts l : Forall2 (fun t x => wt x t) ts l -> wt (VSeq KTuple l) (TTuple ts)
    | wt_counter a l : Forall (fun kv => wt (fst kv) a /\ exists z, snd kv = VInt z) l -> distinct (map fst l) -> wt (VMap MCounter l) (TCounter a)
    | wt_dict m k a b l :
        dict_kind k b m -> Forall (fun kv => wt (fst kv) a /\ wt (snd kv) b) l -> distinct (map fst l) ->
        wt (VMap m l) (TDict k a b)
    | wt_bare b v : bare_val raw b v -> wt v (TBare b)
    | wt_enum c m x : enum_member P c m = Some x -> wt (VEnum c m) (TEnum c)
    | wt_lit l x : In x l -> wt (lit_val x) (TLit l)
    | wt_str k s : w_ctor W k (VStr s) = Ok (VInst k s) -> wt (VInst k s) (TStr k)
    | wt_date k s : w_iso W k (VStr s) = Ok (VDate k s) -> wt (VDate k s) (TDate k)
    | wt_alias n a v : wt v a -> wt v (TAlias n a)
    | wt_obj c d attrs :
        get_class P c = Some d -> frag_class d -> Q d ->
        Forall2 (fun f nv =>
          fst nv = f_name f /\
          (written f || read f = true -> wt (snd nv) (f_type f)) /\
          (read f = false -> dflt f = Some (Ok (snd nv))) /\
          (read f = true -> written f = false -> absent_ok f (snd nv)) /\
          (sk = true -> read f = true -> written f = true -> c_transparent d = false ->
             nonnull (f_type f) = true /\ (snd nv = VNone -> absent_ok f (snd nv))) /\
          (* a field that is left out for its value is one that gets its value back *)
          (written f = true -> c_transparent d = false -> safe_skip d f (snd nv)) /\
          (* the functions of a field turn its value into a number, text, boolean or None and back *)
          (written f = true -> f_serializer f <> None -> exists x, scalar_val x = true /\ coded f (snd nv) x /\
             (read f = true -> decoded f x (snd nv) /\ (sk = true -> x = VNone -> absent_ok f (snd nv))))) (c_fields d) attrs ->
        c_post d (VObj c attrs) = Ok (VObj c attrs) ->
        wt (VObj c attrs) (TClass c).
  End Typing.

  (** * Accepted data *)

  (** Lookup of a string key in a mapping *)
  Definition skey (kvs : list (pyval * pyval)) (k : string) : option pyval := dget (enum_scalar P) kvs (VStr k).

  (** Entry of the first of several keys that is present *)
  Fixpoint first_key (kvs : list (pyval * pyval)) (ks : list string) : option pyval :=
    match ks with
    | [] => None
    | k :: r => match skey kvs k with Some x => Some x | None => first_key kvs r end
    end.

  Definition one_of (ks : list string) (k : pyval) : bool := existsb (fun s => eqv P (VStr s) k) ks.
  Definition all_keys (d : classdef) : list string := concat (map (entry_keys d) (c_fields d)).
  (** Entries meant for a flattened [d'] in [d]: those of its keys and those [d] does not know *)
  Definition kid_data (d d' : classdef) (kvs : list (pyval * pyval)) : list (pyval * pyval) :=
    filter (fun kv => one_of (all_keys d') (fst kv) || negb (one_of (all_keys d) (fst kv))) kvs.

  Section Acc.
    (** [reuse]: instances are accepted for themselves; [hook]: numbers are converted by the hook of a format *)
    Variables (reuse hook : bool).

    (** [Acc nm tg v t x]: the data [x] stands for the value [v] of type [t]. *)
    Inductive Acc : bool -> tagging -> pyval -> pytype -> pyval -> Prop :=
    | A_prim nm tg p v : prim_val p v = true -> Acc nm tg v (TPrim p) v
    | A_sub nm tg n p v x : prim_val p v = true -> x = v \/ x = VSub n v -> (hook = true -> p <> PFloat) ->
        Acc nm tg (VSub n v) (TPrimSub n p) x
    | A_new nm tg n p v : prim_val p v = true -> Acc nm tg v (TNewType n p) v
    | A_none nm tg : Acc nm tg VNone TNone VNone
    | A_any nm tg v : (forall c l, v <> VObj c l) -> Acc nm tg v TAny v
    | A_opt_none nm tg a : is_none a = false -> Acc nm tg VNone (TUnion [a; TNone]) VNone
    | A_opt_some nm tg a v x : is_none a = false -> x <> VNone -> Acc nm tg v a x -> Acc nm tg v (TUnion [a; TNone]) x
    | A_union_prim nm tg l p v : is_opt (TUnion l) = false -> In (TPrim p) l -> prim_val p v = true -> Acc nm tg v (TUnion l) v
    | A_union_none nm tg l : is_opt (TUnion l) = false -> In TNone l -> Acc nm tg VNone (TUnion l) VNone
    | A_union_bulk nm tg l t v x :
        is_opt (TUnion l) = false -> In t l -> bulk t = true -> Acc true tg v t x -> Acc nm tg v (TUnion l) x
    | A_union_ext nm l c v kvs x :
        is_opt (TUnion l) = false -> In (TClass c) l ->
        skey kvs (typename P (TClass c)) = Some x ->
        (forall c', In (TClass c') l -> c' <> c -> skey kvs (typename P (TClass c')) = None) ->
        Acc true TagExternal v (TClass c) x -> Acc nm TagExternal v (TUnion l) (VMap MDict kvs)
    | A_union_int nm tag l c v kvs :
        is_opt (TUnion l) = false -> In (TClass c) l ->
        skey kvs tag = Some (VStr (typename P (TClass c))) ->
        Acc true (TagInternal tag) v (TClass c) (VMap MDict kvs) ->
        Acc nm (TagInternal tag) v (TUnion l) (VMap MDict kvs)
    | A_union_adj nm tag content l c v kvs x :
        is_opt (TUnion l) = false -> In (TClass c) l ->
        skey kvs tag = Some (VStr (typename P (TClass c))) -> skey kvs content = Some x ->
        Acc true (TagAdjacent tag content) v (TClass c) x ->
        Acc nm (TagAdjacent tag content) v (TUnion l) (VMap MDict kvs)
    | A_list nm tg k a l s l' : Forall2 (fun x y => Acc nm tg x a y) l l' -> Acc nm tg (VSeq KList l) (TList k a) (VSeq s l')
    | A_set nm tg k a l s l' : Forall2 (fun x y => Acc nm tg x a y) l l' ->
        distinct l -> forallb (hashable P) l = true ->
        Acc nm tg (VSeq (set_kind k) l) (TSet k a) (VSeq s l')
    | A_deque nm tg a l s l' : Forall2 (fun x y => Acc nm tg x a y) l l' -> Acc nm tg (VSeq KDeque l) (TDeque a) (VSeq s l')
    | A_vartuple nm tg a l s l' : Forall2 (fun x y => Acc nm tg x a y) l l' -> Acc nm tg (VSeq KTuple l) (TVarTuple a) (VSeq s l')
    | A_tuple nm tg ts l s l' : s = KList \/ s = KTuple -> Forall3 (fun t x y => Acc nm tg x t y) ts l l' ->
        Acc nm tg (VSeq KTuple l) (TTuple ts) (VSeq s l')
    | A_counter nm tg a l m l' :
        Forall2 (fun kv kv' => Acc nm tg (fst kv) a (fst kv') /\ snd kv' = snd kv) l l' ->
        distinct (map fst l) -> forallb (hashable P) (map fst l) = true ->
        Acc nm tg (VMap MCounter l) (TCounter a) (VMap m l')
    | A_dict nm tg m k a b l m' l' :
        dict_kind k b m ->
        Forall2 (fun kv kv' =>
          (Acc nm tg (fst kv) a (fst kv') \/
           (* keys of type int may be given as text *)
           a = TPrim PInt /\ exists z s, fst kv = VInt z /\ fst kv' = VStr s /\ w_int_of_str W s = Some z) /\
          Acc nm tg (snd kv) b (snd kv')) l l' ->
        distinct (map fst l) -> forallb (hashable P) (map fst l) = true ->
        Acc nm tg (VMap m l) (TDict k a b) (VMap m' l')
    | A_bare_list nm tg k l s : Acc nm tg (VSeq KList l) (TBare (BList k)) (VSeq s l)
    | A_bare_set nm tg k l s : k <> SkFrozen -> distinct l -> forallb (hashable P) l = true ->
        Acc nm tg (VSeq KSet l) (TBare (BSet k)) (VSeq s l)
    | A_bare_dict nm tg k l : k <> DkDefault -> Acc nm tg (VMap MDict l) (TBare (BDict k)) (VMap MDict l)
    | A_bare_tuple nm tg l s : Acc nm tg (VSeq KTuple l) (TBare BTuple) (VSeq s l)
    | A_bare_deque nm tg l s : Acc nm tg (VSeq KDeque l) (TBare BDeque) (VSeq s l)
    | A_bare_counter nm tg l m : Acc nm tg (VMap MCounter l) (TBare BCounter) (VMap m l)
    | A_enum nm tg c m x : enum_member P c m = Some x -> Acc nm tg (VEnum c m) (TEnum c) x
    | A_enum_str nm tg c m e z s :
        (* an integer given as text *)
        get_enum P c = Some e -> (forall m' x, In (m', x) (e_members e) -> exists z', x = VInt z') ->
        enum_member P c m = Some (VInt z) -> w_int_of_str W s = Some z ->
        Acc nm tg (VEnum c m) (TEnum c) (VStr s)
    | A_lit nm tg l x : In x l -> Acc nm tg (lit_val x) (TLit l) (lit_val x)
    | A_str nm tg k s : w_ctor W k (VStr s) = Ok (VInst k s) -> Acc nm tg (VInst k s) (TStr k) (VStr s)
    | A_str_inst nm tg k s : reuse = true -> Acc nm tg (VInst k s) (TStr k) (VInst k s)
    | A_date nm tg k s : w_iso W k (VStr s) = Ok (VDate k s) -> Acc nm tg (VDate k s) (TDate k) (VStr s)
    | A_date_inst nm tg k s : reuse = true -> Acc nm tg (VDate k s) (TDate k) (VDate k s)
    | A_alias nm tg n a v x : Acc nm tg v a x -> Acc nm tg v (TAlias n a) x
    | A_obj tg c d attrs kvs :
        get_class P c = Some d -> frag_class d -> c_transparent d = false ->
        (c_deny d = true -> forall kv, In kv kvs ->
           exists f k, In f (c_fields d) /\ In k (entry_keys d f) /\ eqv P (VStr k) (fst kv) = true) ->
        Forall2 (fun f nv =>
          fst nv = f_name f /\
          (read f = false /\ dflt f = Some (Ok (snd nv)) \/
           read f = true /\
           ((f_flatten f = false /\ exists x, first_key kvs (key_names d f) = Some x /\
               (f_deserializer f = None /\ Acc true (c_tagging d) (snd nv) (f_type f) x \/
                decoded f x (snd nv) /\ bear P W (snd nv) (f_type f) = true)) \/
            (f_flatten f = false /\ first_key kvs (key_names d f) = None /\ absent_ok f (snd nv) /\ bear P W (snd nv) (f_type f) = true) \/
            (f_flatten f = true /\ exists d', kid f = Some d' /\
               Acc true (c_tagging d) (snd nv) (f_type f) (VMap MDict (kid_data d d' kvs))))))
          (c_fields d) attrs ->
        c_post d (VObj c attrs) = Ok (VObj c attrs) ->
        Acc true tg (VObj c attrs) (TClass c) (VMap MDict kvs)
    | A_obj_tuple tg c d attrs s l :
        get_class P c = Some d -> frag_class d -> c_transparent d = false -> tuple_class d ->
        s = KList \/ s = KTuple ->
        Forall3 (fun f nv x => fst nv = f_name f /\
          (f_deserializer f = None /\ Acc false (c_tagging d) (snd nv) (f_type f) x \/
           decoded f x (snd nv) /\ bear P W (snd nv) (f_type f) = true)) (c_fields d) attrs l ->
        c_post d (VObj c attrs) = Ok (VObj c attrs) ->
        Acc false tg (VObj c attrs) (TClass c) (VSeq s l)
    | A_obj_transparent nm tg c d f n v x :
        get_class P c = Some d -> frag_class d -> c_transparent d = true -> c_fields d = [f] -> n = f_name f ->
        (nm = false -> tuple_class d) ->
        Acc nm (c_tagging d) v (f_type f) x ->
        c_post d (VObj c [(n, v)]) = Ok (VObj c [(n, v)]) ->
        Acc nm tg (VObj c [(n, v)]) (TClass c) x.
  End Acc.

  (** The data [x] of the field [f] of [d] stands for its value [v]. *)
  Definition FAcc (reuse hook nm : bool) (d : classdef) (f : fielddef) (v x : pyval) : Prop :=
    f_deserializer f = None /\ Acc reuse hook nm (c_tagging d) v (f_type f) x \/
    decoded f x v /\ bear P W v (f_type f) = true.
End Spec.
