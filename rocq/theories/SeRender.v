(** Code generation of serde/se.py. *)
From Coq Require Import String List ZArith Bool Ascii.
From Verif Require Import Base PyVal PyType Program Compat Syntax.
Import ListNotations.
Open Scope string_scope.
Open Scope list_scope.

(** Predicates behind a field's skip_if (core.py:562-586, 698-730).  For skip_if_default the default
    value is evaluated when the class is decorated. *)
Inductive skipfn := SkUser (f : pyval -> res bool) | SkFalse | SkNone | SkDefault (d : option pyval).

(** Objects in the globals of the generated functions besides types (se.py:626-646). *)
Inductive gfun := GSkip (s : skipfn) | GFun (f : pyval -> res pyval).

(** core.py:822 *)
Definition mangle (f : string) (n : string) : string := (f ++ "_" ++ n)%string.

Definition flag (o : option bool) (dflt : bool) : bool := match o with Some b => b | None => dflt end.

(** core.py:698-731 and 788: skip_if, then skip_if_false, then skip_if_default, then skip_if_none.
    [sd], [sn]: the class level defaults. *)
Definition field_skip (sd sn : bool) (f : fielddef) : res (option (string * skipfn)) :=
  let dflt :=
    if flag (f_skip_if_default f) sd then
      match f_default f with
      | Some (DVal v) => Ok (Some v)
      | Some (DFact r) => v <- r ;; Ok (Some v)
      | None => Ok None
      end
    else Ok None in
  d <- dflt ;;
  match f_skip_if f with
  | Some p => Ok (Some (mangle (f_name f) "skip_if", SkUser p))
  | None =>
    if f_skip_if_false f then Ok (Some (mangle (f_name f) "skip_if_false", SkFalse))
    else if flag (f_skip_if_default f) sd then Ok (Some (mangle (f_name f) "skip_if_default", SkDefault d))
    else if flag (f_skip_if_none f) sn then Ok (Some (mangle (f_name f) "skip_if_none", SkNone))
    else Ok None
  end.

Definition is_class (t : pytype) : bool := match t with TClass _ => true | _ => false end.

(** Options rejected when a Field is built, core.py:743-769. *)
Definition check_field (f : fielddef) : res unit :=
  if f_flatten f &&
     negb (is_class (f_type f)
           || (match opt_arg (f_type f) with Some a => is_class a | None => false end)
           || is_flatten_dict (f_type f))
  then Raise (XSerde (MText "flatten"))
  else if f_skip_de f && f_init f &&
          negb (match f_default f with Some _ => true | None => false end) && negb (f_skip f)
  then Raise (XSerde (MText "skip_deserializing"))
  else Ok tt.

(** core.py:909-925.  An empty rename_all or rename counts as absent. *)
Definition conv (W : world) (case : option string) (f_name : string) (rename : option string) : res string :=
  name <- match case with
          | Some c =>
              if String.eqb c "" then Ok f_name
              else match w_case W c f_name with
                   | Some n => Ok n
                   | None => Raise (XSerde (MText "Unkown case type"))
                   end
          | None => Ok f_name
          end ;;
  match rename with
  | Some r => if String.eqb r "" then Ok name else Ok r
  | None => Ok name
  end.

(** The fields of a class for serialization: dataclass fields and, on demand, class variables
    (core.py:844-869).  A class variable has none of the field options. *)
Definition class_var_field (cv : string * pytype * pyval) : fielddef :=
  match cv with
  | (n, t, v) =>
    {| f_name := n; f_type := TClassVar t; f_default := Some (DVal v); f_init := true; f_kw_only := false;
       f_rename := None; f_alias := []; f_skip := false; f_skip_se := false; f_skip_de := false;
       f_skip_if := None; f_skip_if_false := false; f_skip_if_none := None; f_skip_if_default := None;
       f_serializer := None; f_deserializer := None; f_flatten := false |}
  end.

(** sefields, se.py:610-623; with the skip predicate of each field. *)
Definition sefields (d : classdef) (class_vars : bool) : res (list (fielddef * option (string * skipfn))) :=
  own <- mapM (fun f =>
           _ <- check_field f ;;
           s <- field_skip (c_skip_if_default d) (c_skip_if_none d) f ;;
           Ok (f, s)) (c_fields d) ;;
  Ok (own ++ (if class_vars then map (fun cv => (class_var_field cv, None)) (c_class_vars d) else [])).

(** Class serializers visible to generated code: global ones, then the one of the class
    (se.py:265, 917). *)
Definition class_sers (P : program) (own : option clsser) : list clsser :=
  p_sers P ++ match own with Some s => [s] | None => [] end.

(** implemented_methods, se.py:916-924: the last serializer declared for the type. *)
Fixpoint last_index {A} (p : A -> bool) (n : nat) (l : list A) (acc : option nat) : option nat :=
  match l with
  | [] => acc
  | a :: r => last_index p (S n) r (if p a then Some n else acc)
  end.
Definition find_ser (P : program) (own : option clsser) (t : pytype) : option nat :=
  last_index (fun s => ty_mem t (cs_types s)) 0 (class_sers P own) None.

(** Renderer, se.py:898-910 *)
Record secfg := mkSecfg {
  r_named : bool;                 (* func: to_dict or to_iter *)
  r_legacy : bool;                (* legacy_class_serializer given *)
  r_suppress : bool;              (* suppress_coerce *)
  r_class_var : bool;             (* serialize_class_var *)
  r_class_ser : option clsser;
  r_name : string                 (* class_name *)
}.

Section SeRender.
  Variables (P : program) (W : world).

  (** se.py:990-999.  [hasser]: the field has a serializer= (the marker, in practice). *)
  Definition legacy_wrap (cfg : secfg) (hasser avail : bool) (t : pytype) (var e : expr) : expr :=
    if r_legacy cfg && negb hasser && negb avail then ELegacySe t var e else e.

  (** Renderer.render for a dataclass that is not flattened, se.py:924-930, 1008-1022 *)
  Definition se_class (cfg : secfg) (hasser : bool) (c : string) (var : expr) : expr :=
    match find_ser P (r_class_ser cfg) (TClass c), hasser with
    | Some n, false => EClsSer n var
    | o, _ => legacy_wrap cfg hasser (match o with Some _ => true | None => false end)
                (TClass c) var (ESeFn var (r_named cfg))
    end.

  (** Renderer.render, se.py:912-1144, for everything but flattened fields and fields with their own
      serializer.  numpy types are not modelled. *)
  Fixpoint se_ty (cfg : secfg) (hasser : bool) (var : expr) (t : pytype) {struct t} : res expr :=
    match find_ser P (r_class_ser cfg) t, hasser with
    | Some n, false => Ok (EClsSer n var)
    | avail, _ =>
      let av := match avail with Some _ => true | None => false end in
      let v := EVar "v" in
      match t with
      | TClass c => Ok (se_class cfg hasser c var)
      | TGen c _ =>
          (* se.py:975-979: render again for the origin; both calls add the legacy wrapper *)
          Ok (legacy_wrap cfg hasser av (TClass c) var (se_class cfg hasser c var))
      | TClassVar a => e <- se_ty cfg hasser var a ;; Ok (legacy_wrap cfg hasser av a var e)
      | _ =>
        e <- match t with
        | TUnion l =>
            if is_opt t then
              match l with
              | a :: _ => e <- se_ty cfg hasser var a ;; Ok (EIf (ENotNone var) e ENone)
              | [] => Raise XIndex
              end
            else Ok (EUnionSe (union_func_name P "union_se" l) var)
        | TList _ a => e <- se_ty cfg hasser v a ;; Ok (EComp KList e var)
        | TBare (BList LList) => Ok var
        | TBare (BList _) => Ok (EBuiltin BkList var)
        | TSet _ a => e <- se_ty cfg hasser v a ;; Ok (EIf EConv (EComp KList e var) (EComp KSet e var))
        | TBare (BSet _) => Ok (EIf EConv (EBuiltin BkList var) var)
        | TDeque a => e <- se_ty cfg hasser v a ;; Ok (EComp KList e var)
        | TBare BDeque => Ok (EBuiltin BkList var)
        | TCounter a => e <- se_ty cfg hasser (EVar "k") a ;; Ok (EMapComp e v var)
        | TBare BCounter => Ok (EBuiltin BkDict var)
        | TDict _ kt vt =>
            ek <- se_ty cfg hasser (EVar "k") kt ;; ev <- se_ty cfg hasser v vt ;;
            Ok (EMapComp ek ev var)
        | TBare (BDict DkDefault) => Raise XIndex
        | TBare (BDict _) => Ok var
        | TTuple [] => Raise XSyntax
        | TTuple l =>
            es <- (fix go n l := match l with
                   | [] => Ok []
                   | a :: r => e <- se_ty cfg hasser (EIdx var n) a ;; es <- go (S n) r ;; Ok (e :: es)
                   end) 0 l ;;
            Ok (ETuple es)
        | TVarTuple a => e <- se_ty cfg hasser v a ;; Ok (EComp KTuple e var)
        | TBare BTuple => Ok var
        | TEnum _ => Ok (EEnumVal t var)
        | TPrim _ | TPrimSub _ _ | TNewType _ _ =>
            if r_suppress cfg then Ok var else Ok (ECoerce (r_name cfg) (show var) t var)
        | TStr _ => Ok (EIf EReuse var (EStr var))
        | TDate _ => Ok (EIf EReuse var (EIso var))
        | TNone => Ok ENone
        | TAny | TVar _ => Ok (EToObj var)
        | TLit _ => Ok var
        | TAlias _ a => se_ty cfg hasser var a
        | _ => Raise (XSerde MUnsupported)
        end ;;
        Ok (legacy_wrap cfg hasser av t var e)
      end
    end.

  (** A legacy wrapper around a flattened field: more than one expression after [default=lambda:]
      is a syntax error. *)
  Definition legacy_wrap_list (cfg : secfg) (hasser avail : bool) (t : pytype) (var : expr) (es : list expr) : res (list expr) :=
    if r_legacy cfg && negb hasser && negb avail then
      match es with [e] => Ok [ELegacySe t var e] | _ => Raise XSyntax end
    else Ok es.

  Definition has_some {A} (o : option A) : bool := match o with Some _ => true | None => false end.

  (** Renderer.render of a field of the object [parent].  A flattened dataclass yields one expression
      per field of the child, whatever the child's skip options say (se.py:1008-1017). *)
  Fixpoint se_field (n : nat) (cfg : secfg) (f : fielddef) (parent : expr) : res (list expr) :=
    let var := EAttr parent (f_name f) in
    let hasser := has_some (f_serializer f) in
    let splice c :=
      match n with
      | O => Raise XRecursion
      | S n =>
        match get_class P c with
        | None => Raise XAttr
        | Some d =>
          fs <- sefields d (r_class_var cfg) ;;
          ess <- mapM (fun fs => se_field n cfg (fst fs) var) fs ;;
          Ok (concat ess)
        end
      end in
    match find_ser P (r_class_ser cfg) (f_type f), f_serializer f with
    | Some k, None => Ok [EClsSer k var]
    | _, Some (FFun _) => Ok [EFn (mangle (f_name f) "serializer") var]
    | avail, _ =>
      if f_flatten f then
        match f_type f with
        | TClass c => es <- splice c ;; legacy_wrap_list cfg hasser (has_some avail) (f_type f) var es
        | t =>
          match opt_arg t with
          | Some (TClass c) =>
              inner <- match find_ser P (r_class_ser cfg) (TClass c), hasser with
                       | Some k, false => Ok [EClsSer k var]
                       | a', _ => es <- splice c ;; legacy_wrap_list cfg hasser (has_some a') (TClass c) var es
                       end ;;
              legacy_wrap_list cfg hasser (has_some avail) t var inner
          | _ => e <- se_ty cfg hasser var t ;; Ok [e]
          end
        end
      else e <- se_ty cfg hasser var (f_type f) ;; Ok [e]
    end.

  (** Left hand side of an assignment: res["k"], or the marker __FLATTEN_DICT__ which is a plain
      local variable when it appears next to other targets. *)
  Inductive target := TgtKey (k : string) | TgtFlat.

  (** LRenderer, se.py:863-895.  [case] is the rename_all of the class being generated, also for
      the fields of flattened children. *)
  Fixpoint se_targets (n : nat) (case : option string) (class_vars : bool) (f : fielddef) : res (list target) :=
    let flat c :=
      match n with
      | O => Raise XRecursion
      | S n =>
        match get_class P c with
        | None => Raise XAttr
        | Some d =>
          fs <- sefields d class_vars ;;
          ts <- mapM (fun fs => se_targets n case class_vars (fst fs)) fs ;;
          Ok (concat ts)
        end
      end in
    let key := k <- conv W case (f_name f) (f_rename f) ;; k <- lit k ;; Ok [TgtKey k] in
    if f_flatten f then
      match f_type f with
      | TClass c => flat c
      | t => match opt_arg t with
             | Some (TClass c) => flat c
             | _ => if is_flatten_dict t then Ok [TgtFlat] else key
             end
      end
    else key.

  (** One statement block of the dict template, se.py:662-683 *)
  Record sstmt := mkSstmt {
    s_rhs : list expr;
    s_targets : list target;
    s_skip : option string       (* name of the skip_if predicate *)
  }.

  Definition se_cfg (d : classdef) (named : bool) : secfg :=
    {| r_named := named;
       r_legacy := has_some (c_serializer d);
       r_suppress := match c_check d with TcCoerce => false | _ => true end;
       r_class_var := if named then false else c_ser_class_var d;   (* se.py:772-779 vs 810-816 *)
       r_class_ser := c_class_ser d;
       r_name := c_name d |}.

  Definition se_skipped (f : fielddef) : bool := f_skip f || f_skip_se f.

  (** add_field_serializers_to_scope, se.py:626-646; later entries win *)
  Fixpoint se_fns (n : nat) (d : classdef) : res (list (string * gfun)) :=
    fs <- sefields d (c_ser_class_var d) ;;
    ls <- mapM (fun fs =>
      let f := fst fs in
      let own :=
        (match snd fs with Some (nm, s) => [(nm, GSkip s)] | None => [] end) ++
        (match f_serializer f with
         | Some FDefault => [(mangle (f_name f) "serializer", GFun (fun _ => Ok VNone))]
         | Some (FFun g) => [(mangle (f_name f) "serializer", GFun g)]
         | None => [] end) in
      let child := match f_type f with
        | TClass c => Some c
        | t => match opt_arg t with Some (TClass c) => Some c | _ => None end
        end in
      match f_flatten f, child with
      | true, Some c =>
        match n with
        | O => Raise XRecursion
        | S n =>
          match get_class P c with
          | None => Raise XAttr
          | Some d' => l <- se_fns n d' ;; Ok (own ++ l)
          end
        end
      | _, _ => Ok own
      end) fs ;;
    Ok (concat ls).

  (** Body of to_dict: se.py:652-699, 802-839 *)
  Inductive sebody := SbDict (l : list sstmt) | SbTransparent (rhs : list expr) | SbTuple (l : list (list expr)).

  Definition obj_var := EVar "obj".

  Definition render_to_dict (d : classdef) : res sebody :=
    fs <- sefields d (c_ser_class_var d) ;;
    let live := filter (fun fs => negb (se_skipped (fst fs))) fs in
    if c_transparent d then
      match live with
      | [] => Raise XIndex
      | (f, _) :: _ => es <- se_field (class_fuel P) (se_cfg d true) f obj_var ;; Ok (SbTransparent es)
      end
    else
      l <- mapM (fun fs =>
             rhs <- se_field (class_fuel P) (se_cfg d true) (fst fs) obj_var ;;
             ts <- se_targets (class_fuel P) (c_rename_all d) (c_ser_class_var d) (fst fs) ;;
             match rhs with
             | [] => Raise XSyntax
             | _ => Ok (mkSstmt rhs ts (option_map fst (snd fs)))
             end) live ;;
      Ok (SbDict l).

  (** Body of to_iter: se.py:700-730, 765-799 *)
  Definition render_to_tuple (d : classdef) : res sebody :=
    fs <- sefields d (c_ser_class_var d) ;;
    let live := filter (fun fs => negb (se_skipped (fst fs))) fs in
    if c_transparent d then
      match live with
      | [] => Raise XIndex
      | (f, _) :: _ => es <- se_field (class_fuel P) (se_cfg d false) f obj_var ;; Ok (SbTransparent es)
      end
    else
      l <- mapM (fun fs =>
             rhs <- se_field (class_fuel P) (se_cfg d false) (fst fs) obj_var ;;
             match rhs with [] => Raise XSyntax | _ => Ok rhs end) live ;;
      Ok (SbTuple l).

  Definition render_se (d : classdef) (named : bool) : res sebody :=
    if named then render_to_dict d else render_to_tuple d.

  (** render_union_func, se.py:842-860: no class serializer, no coercion, dict flavour. *)
  Definition union_se_cfg (d : classdef) : secfg :=
    {| r_named := true; r_legacy := false; r_suppress := true; r_class_var := false;
       r_class_ser := None; r_name := c_name d |}.

  Definition render_union_se (d : classdef) (args : list pytype) : res (list (pytype * expr)) :=
    mapM (fun t =>
      e <- se_ty (union_se_cfg d) false obj_var t ;;
      _ <- lit (typename P t) ;;
      Ok (t, e)) args.
End SeRender.
