(** serde/compat.py and the type tests of serde/core.py. *)
From Coq Require Import String List ZArith Bool Ascii.
From Verif Require Import Base PyVal PyType Program.
Import ListNotations.
Open Scope list_scope.
Open Scope string_scope.

Section Compat.
  Variable P : program.

  (** compat.py:930 *)
  Definition is_enum (t : pytype) : bool := match t with TEnum _ => true | _ => false end.
  (** compat.py:956-970.  An enum class with a primitive mixin is a subclass of the primitive. *)
  Definition is_primitive (t : pytype) : bool :=
    match t with
    | TPrim _ | TPrimSub _ _ | TNewType _ _ => true
    | TEnum c => match prim_of_mixin P c with Some _ => true | None => false end
    | _ => false
    end.
  (** compat.py:941-952 *)
  Definition is_primitive_subclass (t : pytype) : bool :=
    match t with
    | TPrimSub _ _ => true
    | TEnum c => match prim_of_mixin P c with Some _ => true | None => false end
    | _ => false
    end.

  Definition class_name (c : string) : string :=
    match get_class P c with Some d => c_name d | None => c end.
  Definition enum_name (c : string) : string :=
    match get_enum P c with Some d => e_name d | None => c end.

  (** compat.py:270-274 *)
  Definition stringify_literal (l : litval) : string :=
    match l with
    | LStr s => "'" ++ s ++ "'"
    | LInt z => z_str z
    | LBool b => if b then "True" else "False"
    | LNone => "None"
    | LEnum c m => enum_name c ++ "." ++ m
    end.

  (** compat.py:154-267.  Order of the tests matters: Counter[T] is a dict with one argument
      (is_dict before is_counter), so its name is "dict"; abstract collections get the name of the
      concrete one; a NewType gets the name of its supertype. *)
  Fixpoint typename (t : pytype) : string :=
    match t with
    | TPrim p => prim_name p
    | TPrimSub n _ => n
    | TNewType _ p => prim_name p
    | TNone => "NoneType"
    | TAny => "Any"
    | TUnion l =>
        if is_opt t then
          match l with a :: _ => "Optional[" ++ typename a ++ "]" | [] => "Optional" end
        else
          (* union_args, compat.py:293-308: pairs (X, None) are shown as Optional[X] *)
          "Union[" ++ sconcat ", "
            ((fix go l := match l with
              | [] => []
              | [a] => [typename a]
              | a :: (b :: r) as r' =>
                  if is_none b then ("Optional[" ++ typename a ++ "]") :: go r
                  else typename a :: typename b :: go r
              end) l) ++ "]"
    | TList _ t => "list[" ++ typename t ++ "]"
    | TSet _ t => "set[" ++ typename t ++ "]"
    | TDict _ k v => "dict[" ++ typename k ++ ", " ++ typename v ++ "]"
    | TDeque t => "deque[" ++ typename t ++ "]"
    | TCounter _ => "dict"
    | TTuple [] => "tuple"
    | TTuple l => "tuple[" ++ sconcat ", " (map typename l) ++ "]"
    | TVarTuple t => "tuple[" ++ typename t ++ ", ...]"
    | TBare (BList _) => "list"
    | TBare (BSet _) => "set"
    | TBare (BDict _) => "dict"
    | TBare BTuple => "tuple"
    | TBare BDeque => "deque"
    | TBare BCounter => "Counter"
    | TEnum c => enum_name c
    | TClass c => class_name c
    | TGen c _ => class_name c
    | TVar n => n
    | TLit l => "Literal[" ++ sconcat ", " (map stringify_literal l) ++ "]"
    | TStr k => k
    | TDate k => k
    | TClassVar _ => "ClassVar"
    | TAlias n _ => n
    | TOther c => c
    end.

  (** [A-Za-z0-9] *)
  Definition is_alnum (a : ascii) : bool :=
    let n := nat_of_ascii a in
    (Nat.leb 48 n && Nat.leb n 57) || (Nat.leb 65 n && Nat.leb n 90) || (Nat.leb 97 n && Nat.leb n 122).
  (** re.sub(r"[^A-Za-z0-9]", "_", s).  The model works on bytes: a non-ASCII character becomes
      several underscores instead of one. *)
  Fixpoint sanitize (s : string) : string :=
    match s with
    | EmptyString => EmptyString
    | String a r => String (if is_alnum a then a else "_"%char) (sanitize r)
    end.

  (** core.py:928-939 *)
  Definition union_func_name (prefix : string) (args : list pytype) : string :=
    sanitize (prefix ++ "_" ++ sconcat "_" (map typename args)).

  Definition lit_str (l : litval) : string :=
    match l with LStr s => s | _ => stringify_literal l end.
  Definition lit_typename (l : litval) : string :=
    match l with
    | LInt _ => "int" | LStr _ => "str" | LBool _ => "bool" | LNone => "NoneType"
    | LEnum c _ => enum_name c
    end.
  (** core.py:942-956 *)
  Definition literal_func_name (args : list litval) : string :=
    sanitize ("literal_de_" ++ sconcat "_" (map (fun a => lit_str a ++ "_" ++ lit_typename a) args)).

  (** iter_types, compat.py:339-405.  The visited set is kept as a list.  The marker entries
      (Optional, Union, list, ...) are left out: they only make names available that the model
      resolves directly.  [rec] expands a dataclass. *)
  Fixpoint it_ty (rec : string -> list pytype -> list pytype) (t : pytype) (acc : list pytype) : list pytype :=
    if ty_mem t acc then acc
    else match t with
    | TClass c => rec c acc
    | TUnion l =>
        if is_opt t then match l with a :: _ => it_ty rec a acc | [] => acc end
        else fold_left (fun acc x => it_ty rec x acc) l acc
    | TList _ a | TSet _ a | TDeque a | TCounter a => it_ty rec a acc
    | TTuple l => fold_left (fun acc x => it_ty rec x acc) l acc
    | TVarTuple a => it_ty rec a acc
    | TDict _ k v => it_ty rec v (it_ty rec k acc)
    | TBare _ => acc
    | TAlias _ a => it_ty rec a acc
    | _ => t :: acc
    end.

  Definition it_fields (rec : string -> list pytype -> list pytype) (d : classdef) (acc : list pytype) : list pytype :=
    fold_left (fun acc f => if f_skip f then acc else it_ty rec (f_type f) acc) (c_fields d) acc.

  (** Fuel bounds the number of dataclasses on the recursion path; [it_class_fuel] in Deco.v
      shows that the number of classes suffices. *)
  Fixpoint it_class (n : nat) (c : string) (acc : list pytype) : list pytype :=
    match n with
    | O => acc
    | S n =>
      match get_class P c with
      | None => TClass c :: acc
      | Some d => it_fields (fun c acc => it_class n c acc) d (TClass c :: acc)
      end
    end.

  Definition class_fuel : nat := S (List.length (p_classes P)).

  (** iter_types(cls) for the class being generated *)
  Definition iter_types (d : classdef) : list pytype :=
    it_fields (it_class class_fuel) d [TClass (c_id d)].

  (** iter_unions, compat.py:408-450.  [stack] holds the dataclasses being expanded. *)
  Fixpoint iu_ty (rec : string -> list pytype) (t : pytype) : list pytype :=
    match t with
    | TUnion l =>
        ((t :: concat (map (iu_ty rec) l)) ++
        (if is_opt t then match l with a :: _ => iu_ty rec a | [] => [] end else []))%list
    | TAlias _ a => iu_ty rec a
    | TClass c => rec c
    | TList _ a | TSet _ a | TDeque a | TCounter a | TVarTuple a => iu_ty rec a
    | TTuple l => concat (map (iu_ty rec) l)
    | TDict _ k v => (iu_ty rec k ++ iu_ty rec v)%list
    | _ => []
    end.

  Definition iu_fields (rec : string -> list pytype) (d : classdef) : list pytype :=
    concat (map (fun f => if f_skip f then [] else iu_ty rec (f_type f)) (c_fields d)).

  Fixpoint iu_class (n : nat) (stack : list string) (c : string) : list pytype :=
    match n with
    | O => []
    | S n =>
      if smem c stack then []
      else match get_class P c with
      | None => []
      | Some d => iu_fields (fun c' => iu_class n (c :: stack) c') d
      end
    end.

  Definition iter_unions (d : classdef) : list pytype :=
    iu_fields (iu_class class_fuel [c_id d]) d.

  (** iter_literals, compat.py:453-494.  PEP 695 aliases are not unwrapped here. *)
  Fixpoint il_ty (rec : string -> list (list litval)) (t : pytype) : list (list litval) :=
    match t with
    | TLit l => [l]
    | TUnion l =>
        (concat (map (il_ty rec) l) ++
        (if is_opt t then match l with a :: _ => il_ty rec a | [] => [] end else []))%list
    | TClass c => rec c
    | TList _ a | TSet _ a | TDeque a | TCounter a | TVarTuple a => il_ty rec a
    | TTuple l => concat (map (il_ty rec) l)
    | TDict _ k v => (il_ty rec k ++ il_ty rec v)%list
    | _ => []
    end.

  Definition il_fields (rec : string -> list (list litval)) (d : classdef) : list (list litval) :=
    concat (map (fun f => if f_skip f then [] else il_ty rec (f_type f)) (c_fields d)).

  Fixpoint il_class (n : nat) (stack : list string) (c : string) : list (list litval) :=
    match n with
    | O => []
    | S n =>
      if smem c stack then []
      else match get_class P c with
      | None => []
      | Some d => il_fields (fun c' => il_class n (c :: stack) c') d
      end
    end.

  Definition iter_literals (d : classdef) : list (list litval) :=
    il_fields (il_class class_fuel [c_id d]) d.

  (** Types in the globals of the generated serialize functions, se.py:291-301.  Later entries
      replace earlier ones with the same name. *)
  Definition se_globals (d : classdef) : list (string * pytype) :=
    fold_left (fun g t => if is_primitive t && negb (is_enum t) then g else (typename t, t) :: g)
      (iter_types d) [].

  (** Types in the globals of the generated deserialize functions, de.py:340-357. *)
  Definition de_globals (d : classdef) : list (string * pytype) :=
    fold_left (fun g t =>
      if is_primitive t && negb (is_enum t) && negb (is_primitive_subclass t) then g
      else match t with
           | TGen c _ => (typename t, TClass c) :: g
           | _ => (typename t, t) :: g
           end)
      (iter_types d) [].

  Definition lookup_name (g : list (string * pytype)) (n : string) : res pytype :=
    of_option XName (slookup n g).

  (** The object the text [typename t] denotes in generated code with globals [g]. *)
  Fixpoint resolve (g : list (string * pytype)) (t : pytype) : res pytype :=
    match t with
    | TPrim p => Ok (TPrim p)
    | TNewType _ p => Ok (TPrim p)
    | TNone => Ok TNone
    | TAny => Ok TAny
    | TUnion l => l' <- mapM (resolve g) l ;; Ok (TUnion l')
    | TList _ a => a' <- resolve g a ;; Ok (TList LList a')
    | TSet _ a => a' <- resolve g a ;; Ok (TSet SkSet a')
    | TDict _ k v => k' <- resolve g k ;; v' <- resolve g v ;; Ok (TDict DkDict k' v')
    | TDeque a => a' <- resolve g a ;; Ok (TDeque a')
    | TCounter _ => Ok (TBare (BDict DkDict))
    | TTuple [] => Ok (TBare BTuple)
    | TTuple l => l' <- mapM (resolve g) l ;; Ok (TTuple l')
    | TVarTuple a => a' <- resolve g a ;; Ok (TVarTuple a')
    | TBare (BList _) => Ok (TBare (BList LList))
    | TBare (BSet _) => Ok (TBare (BSet SkSet))
    | TBare (BDict _) => Ok (TBare (BDict DkDict))
    | TBare b => Ok (TBare b)
    | TLit l => if existsb (fun x => match x with LEnum _ _ => true | _ => false end) l
                then Raise XName else Ok (TLit l)
    | TClassVar _ => Raise XName
    | TPrimSub _ _ | TEnum _ | TClass _ | TGen _ _ | TVar _ | TStr _ | TDate _ | TAlias _ _ | TOther _ =>
        lookup_name g (typename t)
    end.

  (** type(v) is t *)
  Definition type_is (v : pyval) (t : pytype) : bool :=
    match v, t with
    | VNone, TNone => true
    | VBool _, TPrim PBool | VInt _, TPrim PInt | VFloat _, TPrim PFloat | VStr _, TPrim PStr => true
    | VSub c _, TPrimSub n _ => String.eqb c n
    | VSeq KList _, TBare (BList LList) | VSeq KTuple _, TBare BTuple
    | VSeq KSet _, TBare (BSet SkSet) | VSeq KFrozen _, TBare (BSet SkFrozen)
    | VSeq KDeque _, TBare BDeque => true
    | VMap MDict _, TBare (BDict DkDict) | VMap MCounter _, TBare BCounter
    | VMap (MDefault _) _, TBare (BDict DkDefault) => true
    | VObj c _, TClass c' | VEnum c _, TEnum c' | VInst c _, TStr c' | VDate c _, TDate c'
    | VOpaque c _, TOther c' => String.eqb c c'
    | _, _ => false
    end.

  (** isinstance against the unsubscripted container classes *)
  Definition list_inst (k : listkind) (s : seqkind) : bool :=
    match k, s with
    | LList, KList => true
    | LMutSeq, (KList | KDeque) => true
    | LSequence, (KList | KDeque | KTuple) => true
    | _, _ => false
    end.
  Definition set_inst (k : setk) (s : seqkind) : bool :=
    match k, s with
    | SkSet, KSet | SkFrozen, KFrozen | SkMut, KSet => true
    | SkAbs, (KSet | KFrozen) => true
    | _, _ => false
    end.
  Definition dict_inst (k : dictk) (m : mapkind) : bool :=
    match k, m with
    | DkDefault, MDefault _ => true
    | DkDefault, _ => false
    | _, _ => true
    end.
  Definition bare_inst (b : bare) (v : pyval) : bool :=
    match b, v with
    | BList LSequence, VStr _ => true
    | BList k, VSeq s _ => list_inst k s
    | BSet k, VSeq s _ => set_inst k s
    | BDict k, VMap m _ => dict_inst k m
    | BTuple, VSeq KTuple _ => true
    | BDeque, VSeq KDeque _ => true
    | BCounter, VMap MCounter _ => true
    | _, _ => false
    end.

  (** isinstance(v, <class>) for the named classes *)
  Definition named_inst (v : pyval) (t : pytype) : bool :=
    match t, v with
    | TPrimSub n _, VSub c _ => issub P c n
    | TStr k, VInst k' _ => issub P k' k
    | TDate k, VDate k' _ => issub P k' k
    | TOther n, VOpaque c _ => issub P c n
    | TClass c, VObj c' _ => obj_isa P c' c
    | TGen c _, VObj c' _ => obj_isa P c' c
    | TEnum c, VEnum c' _ => String.eqb c c'
    | _, _ => false
    end.

  Variable W : world.

  Definition picked {A} (v : pyval) (l : list A) : option A :=
    match w_pick W v with Some n => nth_opt l n | None => None end.

  (** beartype's check of a value against an annotation, used for strict type checking
      (se.py:244-246, de.py:284-286) and is_bearable.  beartype looks at one element of a
      homogeneous container (chosen by [w_pick]) and at every element of a fixed tuple. *)
  Fixpoint bear (v : pyval) (t : pytype) {struct t} : bool :=
    match t with
    | TPrim p | TNewType _ p => isinst_prim P v p
    | TNone => match v with VNone => true | _ => false end
    | TAny | TVar _ => true
    | TUnion l => existsb (bear v) l
    | TList k a =>
        match v with
        | VSeq s l => list_inst k s && match picked v l with Some x => bear x a | None => true end
        | VStr _ => match k with LSequence => bear v a | _ => false end
        | _ => false
        end
    | TSet k a =>
        match v with
        | VSeq s l => set_inst k s && match picked v l with Some x => bear x a | None => true end
        | _ => false
        end
    | TDeque a =>
        match v with
        | VSeq KDeque l => match picked v l with Some x => bear x a | None => true end
        | _ => false
        end
    | TVarTuple a =>
        match v with
        | VSeq KTuple l => match picked v l with Some x => bear x a | None => true end
        | _ => false
        end
    | TTuple ts =>
        match v with
        | VSeq KTuple l =>
            (fix go ts l := match ts, l with
             | [], [] => true
             | t :: ts, x :: l => bear x t && go ts l
             | _, _ => false end) ts l
        | _ => false
        end
    | TDict k kt vt =>
        match v with
        | VMap m l => dict_inst k m &&
            match picked v l with Some (a, b) => bear a kt && bear b vt | None => true end
        | _ => false
        end
    | TCounter kt =>
        match v with
        | VMap MCounter l => match picked v l with Some (a, _) => bear a kt | None => true end
        | _ => false
        end
    | TBare b => bare_inst b v
    | TLit l => existsb (fun x => eqv P (lit_val x) v &&
        match x, v with
        | LEnum c _, _ => named_inst v (TEnum c)
        | LInt _, _ => isinst_prim P v PInt
        | LBool _, _ => isinst_prim P v PBool
        | LStr _, _ => isinst_prim P v PStr
        | LNone, VNone => true
        | LNone, _ => false
        end) l
    | TClassVar a | TAlias _ a => bear v a
    | TPrimSub _ _ | TEnum _ | TClass _ | TGen _ _ | TStr _ | TDate _ | TOther _ => named_inst v t
    end.

  Definition head_ok {A} (f : A -> bool) (l : list A) : bool :=
    match l with [] => true | x :: _ => f x end.

  (** core.py:372-531, used by the generated union serializers. *)
  Fixpoint is_instance (v : pyval) (t : pytype) {struct t} : bool :=
    match t with
    | TClass c => named_inst v t
    | TUnion l => existsb (is_instance v) l
    | TList k a =>
        match v with VSeq s l => list_inst k s && head_ok (fun x => is_instance x a) l | _ => false end
    | TSet _ a =>
        match v with VSeq s l => is_setkind s && head_ok (fun x => is_instance x a) l | _ => false end
    | TTuple ts =>
        match v with
        | VSeq KTuple l =>
            (fix go ts l := match ts, l with
             | [], [] => true
             | t :: ts, x :: l => is_instance x t && go ts l
             | _, _ => false end) ts l
        | _ => false
        end
    | TVarTuple a =>
        match v with VSeq KTuple l => forallb (fun x => is_instance x a) l | _ => false end
    | TCounter a =>
        match v with VMap MCounter l => head_ok (fun kv => is_instance (fst kv) a) l | _ => false end
    | TDict _ kt vt =>
        match v with
        | VMap _ l => head_ok (fun kv => is_instance (fst kv) kt && is_instance (snd kv) vt) l
        | _ => false end
    | TDeque a =>
        match v with VSeq KDeque l => head_ok (fun x => is_instance x a) l | _ => false end
    | TBare (BList k) => match v with VSeq s _ => list_inst k s | _ => false end
    | TBare (BSet _) => match v with VSeq s _ => is_setkind s | _ => false end
    | TBare (BDict _) => match v with VMap _ _ => true | _ => false end
    | TBare b => bare_inst b v
    | TGen c _ => named_inst v (TClass c)
    | TLit _ => true
    | TNewType _ p => isinst_prim P v p
    | TAny => true
    | _ => bear v t
    end.
End Compat.
