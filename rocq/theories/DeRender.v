(** Code generation of serde/de.py. *)
From Coq Require Import String List ZArith Bool Ascii.
From Verif Require Import Base PyVal PyType Program Compat Syntax SeRender.
Import ListNotations.
Open Scope string_scope.
Open Scope list_scope.

(** Class deserializers visible to generated code (de.py:305-309, 911-919). *)
Definition class_des (P : program) (own : option clsde) : list clsde :=
  p_des P ++ match own with Some s => [s] | None => [] end.
Definition find_de (P : program) (own : option clsde) (t : pytype) : option nat :=
  last_index (fun s => ty_mem t (cd_types s)) 0 (class_des P own) None.

(** Renderer, de.py:892-905 *)
Record decfg := mkDecfg {
  d_named : bool;                 (* func: from_dict or from_iter *)
  d_cls : classdef;               (* cls *)
  d_legacy : bool;                (* legacy_class_deserializer given *)
  d_suppress : bool;              (* suppress_coerce *)
  d_class_de : option clsde;
  d_cname : string                (* class_name; "None" when not given *)
}.

(** DeField / InnerField, de.py:748-879 *)
Record dearg := mkDearg {
  da_name : string;
  da_var : expr;                  (* datavar *)
  da_index : nat;
  da_iter : bool;                 (* iterbased *)
  da_inner : bool;                (* an InnerField *)
  da_case : option string;
  da_alias : list string;
  da_rename : option string;
  da_deser : option (option string);  (* deserializer=: None, the marker (Some None) or the name of the function *)
  da_flatten : bool;
  da_default : bool;              (* has default or default_factory *)
  da_parent : option string;      (* class the field belongs to *)
  da_targs : option (list string) (* type_args *)
}.

(** An inner field inherits the options but has no default (de.py:771-795). *)
Definition inner_arg (a : dearg) (name : string) (var : expr) : dearg :=
  {| da_name := name; da_var := var; da_index := 0; da_iter := false; da_inner := true;
     da_case := da_case a; da_alias := da_alias a; da_rename := da_rename a; da_deser := da_deser a;
     da_flatten := da_flatten a; da_default := false; da_parent := da_parent a; da_targs := None |}.
(** The field of an Optional (de.py:797-810). *)
Definition opt_inner (a : dearg) : dearg :=
  {| da_name := da_name a; da_var := da_var a; da_index := da_index a; da_iter := da_iter a;
     da_inner := da_inner a; da_case := da_case a; da_alias := da_alias a; da_rename := da_rename a;
     da_deser := da_deser a; da_flatten := da_flatten a; da_default := false;
     da_parent := da_parent a; da_targs := None |}.
Definition with_targs (a : dearg) (l : list string) : dearg :=
  {| da_name := da_name a; da_var := da_var a; da_index := da_index a; da_iter := da_iter a;
     da_inner := da_inner a; da_case := da_case a; da_alias := da_alias a; da_rename := da_rename a;
     da_deser := da_deser a; da_flatten := da_flatten a; da_default := da_default a;
     da_parent := da_parent a; da_targs := Some l |}.

Section DeRender.
  Variables (P : program) (W : world).

  (** conv_name() of the argument, put in a string literal *)
  Definition da_key (a : dearg) : res string :=
    k <- conv W (da_case a) (da_name a) (da_rename a) ;; lit k.

  (** DeField.data / InnerField.data, de.py:827-848, 873-875 *)
  Definition da_data (a : dearg) (t : pytype) : res expr :=
    if da_inner a then Ok (da_var a)
    else if da_iter a then Ok (EIdx (da_var a) (da_index a))
    else k <- da_key a ;; Ok (if has_none_arg t then EGet (da_var a) k else EKey (da_var a) k).

  (** DeField.data_or, de.py:854-858 *)
  Definition da_data_or (a : dearg) (t : pytype) : res expr :=
    if da_iter a then da_data a t
    else k <- da_key a ;; Ok (EGet (da_var a) k).

  Fixpoint and_all (l : list expr) : res expr :=
    match l with
    | [] => Raise XSyntax       (* an empty condition *)
    | [e] => Ok e
    | e :: r => e' <- and_all r ;; Ok (EAnd e e')
    end.

  Definition alias_lits (a : dearg) (name : string) : res (list string) := mapM lit (name :: da_alias a).

  (** Renderer.default, de.py:1256-1287 *)
  Definition de_default (a : dearg) (t : pytype) (code : expr) : res expr :=
    if da_default a && negb (da_iter a) then
      exists_ <-
        (if da_flatten a then
           match t with
           | TClass c =>
             match get_class P c with
             | None => Raise XAttr
             | Some d =>
               es <- mapM (fun f =>
                 match f_alias f with
                 | [] => k <- lit (f_name f) ;; Ok (EIn k (da_var a))
                 | al => ks <- mapM lit (f_name f :: al) ;; Ok (EInAliases (da_var a) ks)
                 end) (c_fields d) ;;
               and_all es
             end
           | _ => Raise XAttr
           end
         else
           match da_alias a with
           | [] => k <- da_key a ;; Ok (EIn k (da_var a))
           | _ => ks <- alias_lits a (da_name a) ;; Ok (EInAliases (da_var a) ks)
           end) ;;
      Ok (EIf exists_ code (EDefault (da_name a)))
    else Ok code.

  (** str(t).lstrip("~") for the arguments of a generic, de.py:1047 *)
  Definition targ_str (t : pytype) : string :=
    match t with TVar n => n | _ => ("<" ++ typename P t ++ ">")%string end.

  (** Renderer.dataclass, de.py:1034-1060 *)
  Definition de_class (cfg : decfg) (a : dearg) (c : string) : res expr :=
    var <- (if da_flatten a then
              Ok (if da_iter a then ESlice (da_var a) (da_index a) else da_var a)
            else da_data a (TClass c)) ;;
    let target := match da_parent a with
      | Some p => if String.eqb p c then DtCls else DtName (TClass c)
      | None => DtName (TClass c) end in
    Ok (EDeFn target var (d_named cfg) (da_targs a)).

  (** Data expression of primitives and enums: aliases are looked up in [data] together with the
      Python name of the field (de.py:1194-1198, 1207-1210). *)
  Definition prim_data (a : dearg) (t : pytype) : res expr :=
    match da_alias a with
    | [] => da_data a t
    | _ => ks <- alias_lits a (da_name a) ;; Ok (EAliases ks true)
    end.

  Definition is_float_class (t : pytype) : bool :=
    match t with TPrim PFloat | TPrimSub _ PFloat => true | _ => false end.
  Definition is_prim_sub (t : pytype) : bool := match t with TPrimSub _ _ => true | _ => false end.

  (** Renderer.primitive, de.py:1200-1226 *)
  Definition de_prim (cfg : decfg) (a : dearg) (t : pytype) : res expr :=
    dat <- prim_data a t ;;
    let plain := if d_suppress cfg && negb (is_prim_sub t) then dat
                 else ECoerce (d_cname cfg) (da_name a) t dat in
    if is_float_class t then Ok (EIf EHasNum (ENum dat) plain) else Ok plain.

  (** Keys that dict_key coerces, de.py:1180-1185: int and float classes but not bool. *)
  Definition is_num_key (t : pytype) : bool :=
    match t with TPrim (PInt | PFloat) | TPrimSub _ (PInt | PFloat) => true | _ => false end.

  (** __name__ of the origin or of the type, de.py:1154-1161 *)
  Definition factory_name (t : pytype) : string :=
    match t with
    | TUnion _ => "Union"
    | TList LList _ | TBare (BList LList) => "list"
    | TList LSequence _ | TBare (BList LSequence) => "Sequence"
    | TList LMutSeq _ | TBare (BList LMutSeq) => "MutableSequence"
    | TSet SkSet _ | TBare (BSet SkSet) => "set"
    | TSet SkFrozen _ | TBare (BSet SkFrozen) => "frozenset"
    | TSet SkAbs _ | TBare (BSet SkAbs) => "Set"
    | TSet SkMut _ | TBare (BSet SkMut) => "MutableSet"
    | TDict DkDict _ _ | TBare (BDict DkDict) => "dict"
    | TDict DkDefault _ _ | TBare (BDict DkDefault) => "defaultdict"
    | TDict DkMapping _ _ | TBare (BDict DkMapping) => "Mapping"
    | TDict DkMutMapping _ _ | TBare (BDict DkMutMapping) => "MutableMapping"
    | TDeque _ => "deque"
    | TCounter _ => "Counter"
    | TTuple _ | TVarTuple _ => "tuple"
    | TNewType n _ => n
    | TLit _ => "Literal"
    | _ => typename P t
    end.

  (** Position of a type variable among the parameters of the class, compat.py:1106-1134;
      [None] stands for -1. *)
  Fixpoint index_of (x : string) (n : nat) (l : list string) : option nat :=
    match l with
    | [] => None
    | y :: r => if String.eqb y x then Some n else index_of x (S n) r
    end.

  (** Renderer.render without legacy class deserializer, de.py:907-998.
      Fields with their own deserializer have [da_deser = Some (Some f)]. *)
  Fixpoint de_ty (cfg : decfg) (a : dearg) (t : pytype) {struct t} : res expr :=
    match find_de P (d_class_de cfg) t, da_deser a with
    | Some n, None => dat <- da_data a t ;; de_default a t (EClsDe n t dat)
    | _, Some (Some f) => dat <- da_data a t ;; de_default a t (EFn f dat)
    | _, _ =>
      let vinner := inner_arg a "v" (EVar "v") in
      let kinner := inner_arg a "k" (EVar "k") in
      match t with
      | TGen c args =>
          (* de.py:927-932: rendered again for the origin, which adds the default too *)
          let a' := with_targs a (map targ_str args) in
          e <- match find_de P (d_class_de cfg) (TClass c), da_deser a with
               | Some n, None => dat <- da_data a' (TClass c) ;; Ok (EClsDe n (TClass c) dat)
               | _, _ => de_class cfg a' c
               end ;;
          e <- de_default a' (TClass c) e ;;
          de_default a' (TClass c) e
      | _ =>
        e <- match t with
        | TClass c => de_class cfg a c
        | TUnion l =>
            if is_opt t then
              match l with
              | x :: _ =>
                exists_ <-
                  (if da_iter a || da_inner a then dat <- da_data a t ;; Ok (ENotNone dat)
                   else if da_flatten a then
                     match x with
                     | TClass c =>
                       match get_class P c with
                       | None => Raise XType
                       | Some d =>
                         es <- mapM (fun f => k <- lit (f_name f) ;; Ok (ENotNone (EGet (da_var a) k))) (c_fields d) ;;
                         and_all es
                       end
                     | _ => Raise XType
                     end
                   else
                     k <- da_key a ;;
                     match da_alias a with
                     | [] => Ok (ENotNone (EGet (da_var a) k))
                     | al => ks <- mapM lit (k :: al) ;; Ok (ENotNone (EAliases ks false))
                     end) ;;
                e <- de_ty cfg (opt_inner a) x ;;
                Ok (EIf exists_ e ENone)
              | [] => Raise XIndex
              end
            else dat <- da_data a t ;; Ok (EUnionDe (union_func_name P "union_de" l) dat)
        | TList _ x => e <- de_ty cfg vinner x ;; dat <- da_data a t ;; Ok (EComp KList e dat)
        | TBare (BList _) => dat <- da_data a t ;; Ok (EBuiltin BkList dat)
        | TSet SkFrozen x => e <- de_ty cfg vinner x ;; dat <- da_data a t ;; Ok (EComp KFrozen e dat)
        | TSet _ x => e <- de_ty cfg vinner x ;; dat <- da_data a t ;; Ok (EComp KSet e dat)
        | TBare (BSet _) => dat <- da_data a t ;; Ok (EBuiltin BkSet dat)
        | TDeque x => e <- de_ty cfg vinner x ;; dat <- da_data a t ;; Ok (EComp KDeque e dat)
        | TBare BDeque => dat <- da_data a t ;; Ok (EBuiltin BkDeque dat)
        | TCounter x =>
            e <- de_ty cfg kinner x ;; dat <- da_data a t ;;
            Ok (EBuiltin BkCounter (EMapComp e (EVar "v") dat))
        | TBare BCounter => dat <- da_data a t ;; Ok (EBuiltin BkCounter dat)
        | TDict k kt vt =>
            ek <- (if is_num_key kt then Ok (ECoerce (d_cname cfg) "k" kt (EVar "k"))
                   else de_ty cfg kinner kt) ;;
            ev <- de_ty cfg vinner vt ;;
            dat <- da_data a t ;;
            match k with
            | DkDefault => Ok (EDefDict (factory_name vt) (EMapComp ek ev dat))
            | _ => Ok (EMapComp ek ev dat)
            end
        | TBare (BDict DkDefault) => Raise XIndex
        | TBare (BDict _) => da_data a t
        | TTuple [] => Raise XSyntax
        | TTuple l =>
            dat <- da_data a t ;;
            es <- (fix go n l := match l with
                   | [] => Ok []
                   | x :: r =>
                     e <- de_ty cfg (inner_arg a (show (EIdx dat n)) (EIdx dat n)) x ;;
                     es <- go (S n) r ;; Ok (e :: es)
                   end) 0 l ;;
            Ok (ETuple es)
        | TVarTuple x =>
            dat <- da_data a t ;;
            e <- de_ty cfg (inner_arg a (show (EIdx dat 0)) (EVar "v")) x ;;
            Ok (EComp KTuple e dat)
        | TBare BTuple => dat <- da_data a t ;; Ok (EBuiltin BkTuple dat)
        | TEnum _ => dat <- prim_data a t ;; Ok (EDeEnum t dat)
        | TStr _ =>
            dat <- da_data a t ;;
            Ok (EIf EReuse (EIf (EIsInst dat t) dat (ECtor t dat)) (ECtor t dat))
        | TDate _ =>
            dat <- da_data a t ;;
            Ok (EIf EReuse (EIf (EIsInst dat t) dat (EFromIso t dat)) (EFromIso t dat))
        | TNone => Ok ENone
        | TAny => da_data a t
        | TAlias _ x => de_ty cfg a x
        | TPrim _ | TPrimSub _ _ | TNewType _ _ => de_prim cfg a t
        | TVar n =>
            match c_tvars (d_cls cfg) with
            | None => Raise XExc
            | Some tv => dat <- da_data a t ;; Ok (EFromGen (index_of n 0 tv) dat (negb (da_iter a)))
            end
        | TLit l => dat <- da_data a t ;; Ok (ELitDe (literal_func_name P l) dat)
        | _ => Raise (XSerde MUnsupported)
        end ;;
        de_default a t e
      end
    end.

  (** Renderer.render with a legacy class deserializer, de.py:1000-1011: the default branch is
      rendered by a Renderer without class deserializer and class name. *)
  Definition de_render (cfg : decfg) (a : dearg) (t : pytype) : res expr :=
    match d_legacy cfg, da_deser a, find_de P (d_class_de cfg) t with
    | true, None, None =>
        let cfg' := {| d_named := d_named cfg; d_cls := d_cls cfg; d_legacy := false;
                       d_suppress := d_suppress cfg; d_class_de := None; d_cname := "None" |} in
        let (t', a') := match t with
          | TGen c args => (TClass c, with_targs a (map targ_str args))
          | _ => (t, a) end in
        e <- de_ty cfg' a' t' ;;
        dat <- da_data_or a' t' ;;
        Ok (ELegacyDe t' dat e)
    | _, _, _ => de_ty cfg a t
    end.

  (** renderable, de.py:1308 *)
  Definition renderable (f : fielddef) : bool := f_init f && negb (f_skip f || f_skip_de f).

  (** defields, de.py:882-889 *)
  Definition defields (d : classdef) : res (list fielddef) :=
    mapM (fun f =>
      _ <- check_field f ;;
      _ <- field_skip (c_skip_if_default d) (c_skip_if_none d) f ;;
      Ok f) (c_fields d).

  (** The DeField of a dataclass field after to_arg / to_iter_arg, de.py:1290-1305 *)
  Definition field_arg (d : classdef) (f : fielddef) (idx : nat) (iter : bool) (case : option string) (var : expr) : dearg :=
    {| da_name := f_name f; da_var := var; da_index := idx; da_iter := iter; da_inner := false;
       da_case := case; da_alias := f_alias f; da_rename := f_rename f;
       da_deser := match f_deserializer f with
                   | None => None
                   | Some FDefault => Some None
                   | Some (FFun _) => Some (Some (mangle (f_name f) "deserializer"))
                   end;
       da_flatten := f_flatten f; da_default := has_some (f_default f);
       da_parent := Some (c_id d); da_targs := None |}.

  (** Flattened dataclass of a field, de.py:1553-1574 *)
  Definition flat_child (f : fielddef) : option string :=
    if f_flatten f && negb (is_flatten_dict (f_type f)) then
      match f_type f with
      | TClass c => Some c
      | t => match opt_arg t with Some (TClass c) => Some c | _ => None end
      end
    else None.
  Definition is_flat_dict_field (f : fielddef) : bool := f_flatten f && is_flatten_dict (f_type f).

  (** Scope.de_known_fields, de.py:1577-1597, 1630, 1650-1651.  When the code of the child is not yet
      generated (cyclic flatten) its set is still empty. *)
  Fixpoint known_fields (n : nat) (d : classdef) : res (list string) :=
    if c_transparent d then Ok ["__serde_transparent__"]
    else
      ls <- mapM (fun f =>
        if is_flat_dict_field f then Ok []
        else match flat_child f with
        | Some c =>
          match n with
          | O => Ok []
          | S n => match get_class P c with Some d' => known_fields n d' | None => Raise XAttr end
          end
        | None => k <- conv W (c_rename_all d) (f_name f) (f_rename f) ;; Ok (k :: f_alias f)
        end) (c_fields d) ;;
      Ok (concat ls).

  (** Scope.de_has_flatten_dict, de.py:1642-1652 *)
  Fixpoint has_flat (n : nat) (d : classdef) : bool :=
    if c_transparent d then false
    else existsb (fun f =>
      renderable f &&
      (is_flat_dict_field f ||
       match flat_child f with
       | Some c => match n with
                   | O => false
                   | S n => match get_class P c with Some d' => has_flat n d' | None => false end
                   end
       | None => false
       end)) (c_fields d).

  (** Input of a flattened child, de.py:1388-1394 *)
  Record projection := mkProj { pr_child : list string; pr_parent : list string; pr_child_flat : bool; pr_parent_flat : bool }.

  (** Statements of the dict template, de.py:1382-1410 *)
  Inductive dstmt :=
  | DsExtra (x : string)                                  (* __x = __flatten_extra *)
  | DsField (x : string) (proj : option projection) (e : expr) (missing : option string).
      (* __x = e; with [missing = Some k] a KeyError becomes "missing required field k" *)

  (** A constructor argument: variable and whether it is passed by keyword. *)
  Definition ctor_arg := (string * bool)%type.

  (** Positional arguments after keyword arguments are a syntax error. *)
  Fixpoint check_args (kw : bool) (l : list ctor_arg) : bool :=
    match l with
    | [] => true
    | (_, true) :: r => check_args true r
    | (_, false) :: r => negb kw && check_args kw r
    end.

  Inductive debody :=
  | DbDict (deny : option (list string)) (extra : option (list string)) (l : list dstmt) (args : list ctor_arg)
  | DbTransparent (x : string) (named : bool) (e : expr) (arg : ctor_arg)
  | DbIter (l : list (string * expr)) (args : list ctor_arg).

  Definition de_cfg (d : classdef) (named : bool) : decfg :=
    {| d_named := named; d_cls := d; d_legacy := has_some (c_deserializer d);
       d_suppress := match c_check d with TcCoerce => false | _ => true end;
       d_class_de := c_class_de d; d_cname := c_name d |}.

  (** de.py:1618-1623: everything from the first non-renderable field on is passed by keyword. *)
  Fixpoint force_kw (force : bool) (l : list fielddef) : list ctor_arg :=
    match l with
    | [] => []
    | f :: r =>
        if renderable f then (f_name f, force || f_kw_only f) :: force_kw force r
        else force_kw true r
    end.

  Definition data_var := EVar "data".
  Definition flat_var (x : string) : string := ("__" ++ x ++ "_flatten_data")%string.

  (** render_from_dict, de.py:1600-1673 *)
  Definition render_from_dict (d : classdef) : res debody :=
    all <- defields d ;;
    let fs := filter renderable all in
    let args := force_kw false all in
    if c_transparent d then
      match fs, args with
      | f :: _, arg :: _ =>
        let a := {| da_name := f_name f; da_var := EVar "fake_dict"; da_index := 0; da_iter := false; da_inner := false;
                    da_case := None; da_alias := []; da_rename := Some "__serde_transparent__";
                    da_deser := da_deser (field_arg d f 0 false None data_var);
                    da_flatten := f_flatten f; da_default := has_some (f_default f);
                    da_parent := Some (c_id d); da_targs := None |} in
        e <- de_render (de_cfg d true) a (f_type f) ;;
        Ok (DbTransparent (f_name f) true e arg)
      | _, _ => Raise XIndex
      end
    else
      let direct := existsb is_flat_dict_field fs in
      known <- known_fields (class_fuel P) d ;;
      l <- mapMi_from (fun i f =>
        if is_flat_dict_field f then Ok (DsExtra (f_name f))
        else
          pv <- match flat_child f with
                | Some c =>
                  match get_class P c with
                  | None => Raise XAttr
                  | Some d' =>
                    ck <- known_fields (class_fuel P) d' ;;
                    Ok (Some (mkProj ck known (has_flat (class_fuel P) d') direct), EVar (flat_var (f_name f)))
                  end
                | None => Ok (None, data_var)
                end ;;
          let a := field_arg d f i false (c_rename_all d) (snd pv) in
          e <- de_render (de_cfg d true) a (f_type f) ;;
          if da_default a then Ok (DsField (f_name f) (fst pv) e None)
          else k <- da_key a ;; Ok (DsField (f_name f) (fst pv) e (Some k))) 0 fs ;;
      if check_args false args then
        Ok (DbDict (if c_deny d && negb direct then Some known else None)
                   (if direct then Some known else None) l args)
      else Raise XSyntax.

  (** render_from_iter, de.py:1504-1545 *)
  Definition render_from_iter (d : classdef) : res debody :=
    all <- defields d ;;
    let fs := filter renderable all in
    if c_transparent d then
      match fs with
      | f :: _ =>
        let a := {| da_name := f_name f; da_var := EVar "fake_data"; da_index := 0; da_iter := true; da_inner := false;
                    da_case := None; da_alias := []; da_rename := None;
                    da_deser := da_deser (field_arg d f 0 true None data_var);
                    da_flatten := f_flatten f; da_default := has_some (f_default f);
                    da_parent := Some (c_id d); da_targs := None |} in
        e <- de_render (de_cfg d false) a (f_type f) ;;
        Ok (DbTransparent (f_name f) false e (f_name f, f_kw_only f))
      | [] => Raise XIndex
      end
    else
      l <- mapMi_from (fun i f =>
             e <- de_render (de_cfg d false) (field_arg d f i true None data_var) (f_type f) ;;
             Ok (f_name f, e)) 0 fs ;;
      Ok (DbIter l (map (fun f => (f_name f, false)) fs)).

  Definition render_de (d : classdef) (named : bool) : res debody :=
    if named then render_from_dict d else render_from_iter d.

  (** Field functions in the globals, de.py:377-384 *)
  Definition de_fns (d : classdef) : list (string * gfun) :=
    concat (map (fun f =>
      match f_deserializer f with
      | Some FDefault => [(mangle (f_name f) "deserializer", GFun (fun _ => Ok VNone))]
      | Some (FFun g) => [(mangle (f_name f) "deserializer", GFun g)]
      | None => [] end) (c_fields d)).

  (** render_union_func, de.py:1676-1694 *)
  Definition union_de_cfg (d : classdef) : decfg :=
    {| d_named := true; d_cls := d; d_legacy := false; d_suppress := true; d_class_de := None;
       d_cname := "None" |}.
  Definition union_de_arg : dearg :=
    {| da_name := "fake_key"; da_var := EVar "fake_dict"; da_index := 0; da_iter := false; da_inner := false;
       da_case := None; da_alias := []; da_rename := None; da_deser := None; da_flatten := false;
       da_default := false; da_parent := None; da_targs := None |}.

  Definition quote_free (a : ascii) : bool :=
    negb (Ascii.eqb a "'" || Ascii.eqb a "{" || Ascii.eqb a "}").
  Fixpoint all_chars (p : ascii -> bool) (s : string) : bool :=
    match s with EmptyString => true | String a r => p a && all_chars p r end.
  (** String literals of a Literal arm end up unescaped in the generated code. *)
  Definition arm_lits_ok (t : pytype) : bool :=
    match t with
    | TLit l => forallb (fun x => match x with LStr s => lit_ok s && all_chars quote_free s | _ => true end) l
    | _ => true
    end.

  Definition render_union_de (d : classdef) (args : list pytype) : res (list (pytype * expr)) :=
    mapM (fun t =>
      e <- de_ty (union_de_cfg d) union_de_arg t ;;
      if arm_lits_ok t && lit_ok (typename P t) then Ok (t, e) else Raise XSyntax) args.

  (** render_literal_func, de.py:1697-1710.  repr() of an enum member is not Python code, and a string
      with a quote breaks the literal that holds the error message. *)
  Definition lit_renderable (x : litval) : bool :=
    match x with
    | LEnum _ _ => false
    | LStr s => all_chars (fun a => negb (Ascii.eqb a """" || Ascii.eqb a "'")) s
    | _ => true
    end.
  Definition render_literal_de (args : list litval) : res (list litval) :=
    if forallb lit_renderable args then Ok args else Raise XSyntax.
End DeRender.
