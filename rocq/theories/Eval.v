(** Running the generated functions, and to_obj / from_obj. *)
From Coq Require Import String List ZArith Bool Ascii.
From Verif Require Import Base PyVal PyType Program Compat Syntax SeRender DeRender.
Import ListNotations.
Open Scope string_scope.
Open Scope list_scope.

(** * Python operations used by the generated code *)
Section Ops.
  Variables (P : program) (W : world).

  Definition chars (s : string) : list pyval :=
    map (fun a => VStr (String a EmptyString)) (list_ascii_of_string s).

  Fixpoint substring_b (k s : string) : bool :=
    String.prefix k s || match s with EmptyString => false | String _ r => substring_b k r end.

  (** "k" in v *)
  Definition py_in (k : string) (v : pyval) : res bool :=
    match v with
    | VMap _ l => Ok (dmem (enum_scalar P) l (VStr k))
    | VSeq _ l => Ok (vmem (enum_scalar P) (VStr k) l)
    | _ => match scal_of P v with
           | Some (SS s) => Ok (substring_b k s)
           | _ => Raise XType
           end
    end.

  (** Value a defaultdict makes up for a missing key. *)
  Definition factory_value (f : string) : res pyval :=
    if String.eqb f "int" then Ok (VInt 0)
    else if String.eqb f "float" then Ok (VFloat (SpecFloat.S754_zero false))
    else if String.eqb f "bool" then Ok (VBool false)
    else if String.eqb f "str" then Ok (VStr "")
    else if String.eqb f "list" then Ok (VSeq KList [])
    else if String.eqb f "tuple" then Ok (VSeq KTuple [])
    else if String.eqb f "set" then Ok (VSeq KSet [])
    else if String.eqb f "frozenset" then Ok (VSeq KFrozen [])
    else if String.eqb f "deque" then Ok (VSeq KDeque [])
    else if String.eqb f "dict" then Ok (VMap MDict [])
    else if String.eqb f "Counter" then Ok (VMap MCounter [])
    else Raise XType.

  (** v["k"] *)
  Definition getitem (v : pyval) (k : string) : res pyval :=
    match v with
    | VMap m l =>
      match dget (enum_scalar P) l (VStr k) with
      | Some x => Ok x
      | None => match m with
                | MDict => Raise XKey
                | MCounter => Ok (VInt 0)
                | MDefault f => factory_value f
                end
      end
    | _ => Raise XType
    end.

  (** v[n] *)
  Definition getidx (v : pyval) (n : nat) : res pyval :=
    match v with
    | VSeq (KList | KTuple | KDeque) l => of_option XIndex (nth_opt l n)
    | VMap m l =>
      match dget (enum_scalar P) l (VInt (Z.of_nat n)) with
      | Some x => Ok x
      | None => match m with
                | MDict => Raise XKey
                | MCounter => Ok (VInt 0)
                | MDefault f => factory_value f
                end
      end
    | _ => match scal_of P v with
           | Some (SS s) => of_option XIndex (nth_opt (chars s) n)
           | _ => Raise XType
           end
    end.

  (** v[n:] *)
  Definition slice (v : pyval) (n : nat) : res pyval :=
    match v with
    | VSeq ((KList | KTuple) as k) l => Ok (VSeq k (skipn n l))
    | _ => match scal_of P v with
           | Some (SS s) => Ok (VStr (string_of_list_ascii (skipn n (list_ascii_of_string s))))
           | _ => Raise XType
           end
    end.

  (** v.get("k") *)
  Definition getopt (v : pyval) (k : string) : res pyval :=
    match v with
    | VMap _ l => Ok match dget (enum_scalar P) l (VStr k) with Some x => x | None => VNone end
    | _ => Raise XAttr
    end.

  (** iter(v) *)
  Definition iter (v : pyval) : res (list pyval) :=
    match v with
    | VSeq _ l => Ok l
    | VMap _ l => Ok (map fst l)
    | _ => match scal_of P v with
           | Some (SS s) => Ok (chars s)
           | _ => Raise XType
           end
    end.

  (** v.items() *)
  Definition items (v : pyval) : res (list (pyval * pyval)) :=
    match v with VMap _ l => Ok l | _ => Raise XAttr end.

  (** obj.a; class variables are found through the class *)
  Definition getattr (v : pyval) (a : string) : res pyval :=
    match v with
    | VObj c l =>
      match slookup a l with
      | Some x => Ok x
      | None =>
        match get_class P c with
        | Some d => match find (fun cv => String.eqb (fst (fst cv)) a) (c_class_vars d) with
                    | Some cv => Ok (snd cv)
                    | None => Raise XAttr
                    end
        | None => Raise XAttr
        end
      end
    | _ => Raise XAttr
    end.

  (** Build a container of kind [k]; the elements of sets are hashed. *)
  Definition mk_seq (k : seqkind) (l : list pyval) : res pyval :=
    if is_setkind k then
      if forallb (hashable P) l then Ok (VSeq k (dedup (enum_scalar P) [] l)) else Raise XType
    else Ok (VSeq k l).

  (** {k: v for ...} from pairs in order *)
  Definition mk_map (l : list (pyval * pyval)) : res (list (pyval * pyval)) :=
    foldM (fun acc kv => if hashable P (fst kv) then Ok (dset (enum_scalar P) acc (fst kv) (snd kv))
                         else Raise XType) l [].

  (** collections.Counter(v) *)
  Definition mk_counter (v : pyval) : res pyval :=
    match v with
    | VNone => Ok (VMap MCounter [])
    | VMap _ l => Ok (VMap MCounter l)
    | _ =>
      l <- iter v ;;
      m <- foldM (fun acc x =>
             if hashable P x then
               match dget (enum_scalar P) acc x with
               | Some (VInt n) => Ok (dset (enum_scalar P) acc x (VInt (n + 1)))
               | _ => Ok (dset (enum_scalar P) acc x (VInt 1))
               end
             else Raise XType) l [] ;;
      Ok (VMap MCounter m)
    end.

  (** int(v), float(v), bool(v), str(v); objects other than primitives go through [w_ctor]. *)
  Definition prim_ctor (p : prim) (v : pyval) : res pyval :=
    match p with
    | PBool => Ok (VBool (truthy (enum_scalar P) v))
    | PStr => Ok (VStr (py_str P W v))
    | PInt =>
      match scal_of P v with
      | Some (SI z) => Ok (VInt z)
      | Some (SF f) => z <- Z_of_float f ;; Ok (VInt z)
      | Some (SS s) => z <- of_option XValue (w_int_of_str W s) ;; Ok (VInt z)
      | None => match v with VInst _ _ | VOpaque _ _ => w_ctor W "int" v | _ => Raise XType end
      end
    | PFloat =>
      match scal_of P v with
      | Some (SI z) => f <- float_of_Z z ;; Ok (VFloat f)
      | Some (SF f) => Ok (VFloat f)
      | Some (SS s) => f <- of_option XValue (w_float_of_str W s) ;; Ok (VFloat f)
      | None => match v with VInst _ _ | VOpaque _ _ => w_ctor W "float" v | _ => Raise XType end
      end
    end.

  (** E(v) for an enum class: a member is returned as is, otherwise the first member with an equal
      value is taken. *)
  Definition enum_call (c : string) (v : pyval) : res pyval :=
    match get_enum P c with
    | None => Raise XType
    | Some d =>
      match e_members d with
      | [] => Raise XType
      | ms =>
        if match v with VEnum c' m => String.eqb c' c && match slookup m ms with Some _ => true | None => false end | _ => false end
        then Ok v
        else match find (fun nv => eqv P (snd nv) v) ms with
             | Some (n, _) => Ok (VEnum c n)
             | None => Raise XValue
             end
      end
    end.

  (** t(v) for a class [t] *)
  Definition call_ctor (t : pytype) (v : pyval) : res pyval :=
    match t with
    | TPrim p => prim_ctor p v
    | TPrimSub n p => x <- prim_ctor p v ;; Ok (VSub n x)
    | TNewType _ _ => Ok v
    | TEnum c => enum_call c v
    | TStr k => w_ctor W k v
    | TOther k => w_ctor W k v
    | _ => Raise XType
    end.

  (** coerce_object, core.py:1171-1183 *)
  Definition coerce_object (cls field : string) (t : pytype) (v : pyval) : res pyval :=
    match v with
    | VNone => Raise (XSerde (MCoerceNone cls field))
    | _ => catch (call_ctor t v) (fun _ => Raise (XSerde (MCoerce cls field)))
    end.

  (** enum_value, se.py:1147-1159.  Nesting is bounded by the number of enum classes. *)
  Fixpoint enum_unwrap (n : nat) (v : pyval) : res pyval :=
    match v with
    | VEnum c m =>
      match n with
      | O => NoFuel
      | S n => x <- of_option XAttr (enum_member P c m) ;;
               match x with VEnum _ _ => enum_unwrap n x | _ => Ok x end
      end
    | _ => Raise XType
    end.
  Definition enum_value (c : string) (v : pyval) : res pyval :=
    match v with
    | VEnum _ _ => enum_unwrap (S (List.length (p_enums P))) v
    | _ => e <- enum_call c v ;;
           match e with VEnum c m => of_option XAttr (enum_member P c m) | _ => Raise XType end
    end.

  (** type(v)(s) for the value [v] of an enum member, core.py:1165 *)
  Definition retype (v : pyval) (s : pyval) : res pyval :=
    match v with
    | VInt _ => prim_ctor PInt s
    | VFloat _ => prim_ctor PFloat s
    | VBool _ => prim_ctor PBool s
    | VSeq k _ => l <- iter s ;; mk_seq k l
    | VEnum c _ => enum_call c s
    | VInst k _ => w_ctor W k s
    | _ => Raise XType
    end.
  Definition is_str_inst (v : pyval) : bool := isinst_prim P v PStr.

  (** deserialize_enum, core.py:1146-1168 *)
  Definition deserialize_enum (c : string) (v : pyval) : res pyval :=
    match enum_call c v with
    | Raise ((XValue | XKey) as e) =>
      match get_enum P c with
      | Some d =>
        match e_members d with
        | (_, x) :: _ =>
          match v, x with
          | VSeq KList l, VSeq KTuple _ => enum_call c (VSeq KTuple l)
          | _, _ =>
            if is_str_inst v && match x with VStr _ => false | _ => true end
            then y <- retype x v ;; enum_call c y
            else Raise e
          end
        | [] => Raise e
        end
      | None => Raise e
      end
    | r => r
    end.

  (** dataclasses.asdict, used by skip_if_default when to_dict fails *)
  Fixpoint asdict_std (v : pyval) : pyval :=
    match v with
    | VObj _ l => VMap MDict (map (fun nv => match nv with (n, x) => (VStr n, asdict_std x) end) l)
    | VSeq ((KList | KTuple) as k) l => VSeq k (map asdict_std l)
    | VMap k l => VMap k (map (fun kv => match kv with (a, b) => (asdict_std a, asdict_std b) end) l)
    | _ => v
    end.

  (** _get_by_aliases, _exists_by_aliases: de.py:153-169 *)
  Fixpoint get_by_aliases (d : pyval) (ks : list string) (raise_error : bool) : res pyval :=
    match ks with
    | [] => if raise_error then Raise XKey else Ok VNone
    | k :: r => b <- py_in k d ;; if (b : bool) then getitem d k else get_by_aliases d r raise_error
    end.
  Fixpoint exists_by_aliases (d : pyval) (ks : list string) : res bool :=
    match ks with
    | [] => Ok false
    | k :: r => b <- py_in k d ;; if (b : bool) then Ok true else exists_by_aliases d r
    end.

  (** k in <set of strings> *)
  Definition key_in (k : pyval) (ks : list string) : bool := existsb (fun s => eqv P (VStr s) k) ks.

  (** _project_flattened_data, de.py:172-194 *)
  Definition project_flat (p : projection) (data : pyval) : res pyval :=
    if truthy (enum_scalar P) data then
      l <- items data ;;
      let keep := pr_child_flat p || negb (pr_parent_flat p) in
      Ok (VMap MDict (filter (fun kv =>
            key_in (fst kv) (pr_child p) || (keep && negb (key_in (fst kv) (pr_parent p)))) l))
    else Ok (VMap MDict []).

  (** (data or {}).items() *)
  Definition items_or_empty (data : pyval) : res (list (pyval * pyval)) :=
    if truthy (enum_scalar P) data then items data else Ok [].

  (** Constructor call cls(...) of a dataclass.  Order: the checks of beartype on the arguments that
      are passed, binding, defaults, __post_init__. *)
  Definition positional (d : classdef) : list fielddef :=
    filter (fun f => f_init f && negb (f_kw_only f)) (c_fields d).

  Fixpoint bind_pos (params : list fielddef) (vals : list pyval) : option (list (string * pyval)) :=
    match params, vals with
    | _, [] => Some []
    | [], _ :: _ => None
    | f :: r, v :: vs => option_map (cons (f_name f, v)) (bind_pos r vs)
    end.

  Definition default_value (f : fielddef) : option (res pyval) :=
    match f_default f with
    | Some (DVal v) => Some (Ok v)
    | Some (DFact r) => Some r
    | None => None
    end.

  Definition checked (d : classdef) : bool := match c_check d with TcStrict => true | _ => false end.

  (** [given]: arguments by parameter name *)
  Definition init_fields (d : classdef) (given : list (string * pyval)) : res (list (string * pyval)) :=
    ls <- mapM (fun f =>
      if f_init f then
        match slookup (f_name f) given with
        | Some v => Ok [(f_name f, v)]
        | None => match default_value f with
                  | Some r => v <- r ;; Ok [(f_name f, v)]
                  | None => Raise XType
                  end
        end
      else match default_value f with
           | Some r => v <- r ;; Ok [(f_name f, v)]
           | None => Ok []
           end) (c_fields d) ;;
    Ok (concat ls).

  Definition args_ok (d : classdef) (given : list (string * pyval)) : bool :=
    forallb (fun f =>
      match slookup (f_name f) given with
      | Some v => bear P W v (f_type f)
      | None => true
      end) (c_fields d).

  Definition no_dup_args (d : classdef) (pos kws : list (string * pyval)) : bool :=
    forallb (fun kv =>
      negb (existsb (fun pv => String.eqb (fst pv) (fst kv)) pos) &&
      existsb (fun f => f_init f && String.eqb (f_name f) (fst kv)) (c_fields d)) kws.

  Definition construct (d : classdef) (pos : list pyval) (kws : list (string * pyval)) : res pyval :=
    match bind_pos (positional d) pos with
    | None => Raise XType
    | Some b =>
      if checked d && negb (args_ok d (b ++ kws)) then Raise (XSerde MViolation)
      else if no_dup_args d b kws then
        l <- init_fields d (b ++ kws) ;;
        c_post d (VObj (c_id d) l)
      else Raise XType
    end.

  (** try: return cls(...) except Exception as e: raise UserError(e), de.py:1413-1428 *)
  Definition construct_user (d : classdef) (pos : list pyval) (kws : list (string * pyval)) : res pyval :=
    catch (construct d pos kws) (fun e => Raise (XUser e)).

  (** get_generic_arg, compat.py:1137-1176 *)
  Definition get_generic_arg (mg : option pytype) (mgtv vta : option (list string)) (idx : option nat) : res pytype :=
    match mg, mgtv, vta with
    | Some (TGen c args), Some tv, Some va =>
      if Nat.eqb (List.length args) (List.length tv) then
        n <- of_option XIndex match idx with
                              | Some i => nth_opt va i
                              | None => nth_opt (rev va) 0
                              end ;;
        match index_of n 0 tv with
        | Some i => of_option XIndex (nth_opt args i)
        | None => Ok TAny
        end
      else Raise (XSerde (MText "type args"))
    | _, _, _ => Ok TAny
    end.
End Ops.

(** * Evaluation of generated expressions *)

(** A number hook, e.g. deserialize_json_numbers. *)
Definition numhook := pyval -> res pyval.

(** Calls between generated functions and to_obj / from_obj.  A request carries the class (scope)
    it runs in, so that wrapper classes made up at run time need no name. *)
Inductive callreq :=
| QSe (d : classdef) (obj : pyval) (named : bool) (reuse conv : option bool) (skip : bool)
| QDe (d : classdef) (data : pyval) (named : bool) (reuse : option bool) (dn : option numhook)
      (mg : option pytype) (mgtv vta : option (list string))
| QUnionSe (d : classdef) (f : string) (obj : pyval) (reuse conv skip : bool)
| QUnionDe (d : classdef) (f : string) (data : pyval) (reuse : bool) (dn : option numhook)
| QToObj (o : pyval) (named : bool) (reuse conv : option bool) (skip : bool) (c : option (tagging * pytype))
| QFromObj (c : tagging * pytype) (o : pyval) (named : bool) (reuse : option bool) (dn : option numhook).

(** What generated code sees besides its local variables. *)
Record ctx := mkCtx {
  x_cls : classdef;
  x_g : list (string * pytype);
  x_fns : list (string * gfun);
  x_reuse : bool;
  x_conv : bool;
  x_skip : bool;
  x_dn : option numhook;
  x_mg : option pytype;
  x_mgtv : option (list string);
  x_vta : option (list string)
}.

Definition env := list (string * pyval).

Section Eval.
  Variables (P : program) (W : world).
  Variable call : callreq -> res pyval.
  Variable cx : ctx.

  (** The last object stored under a name in the globals *)
  Definition fn_lookup (f : string) : option gfun := slookup f (rev (x_fns cx)).

  Definition default_of (f : string) : res pyval :=
    match find (fun fd => String.eqb (f_name fd) f) (c_fields (x_cls cx)) with
    | Some fd => match default_value fd with Some r => r | None => Raise XKey end
    | None => Raise XKey
    end.

  Definition builtin_factory (f : string) : bool :=
    smem f ["int"; "float"; "bool"; "str"; "list"; "tuple"; "set"; "frozenset"; "deque"; "dict"; "Union"; "Counter"].

  Definition literal_args (f : string) : option (list litval) :=
    find (fun l => String.eqb (literal_func_name P l) f) (rev (iter_literals P (x_cls cx))).

  (** Evaluation in the environment [rho]. *)
  Fixpoint eval (rho : env) (e : expr) {struct e} : res pyval :=
    match e with
    | EVar x => of_option XName (slookup x rho)
    | ENone => Ok VNone
    | EAttr e a => v <- eval rho e ;; getattr P v a
    | EKey e k => v <- eval rho e ;; getitem P v k
    | EIdx e n => v <- eval rho e ;; getidx P v n
    | ESlice e n => v <- eval rho e ;; slice P v n
    | EGet e k => v <- eval rho e ;; getopt P v k
    | EAliases ks r => d <- of_option XName (slookup "data" rho) ;; get_by_aliases P d ks r
    | EIf c a b =>
        v <- eval rho c ;;
        if truthy (enum_scalar P) v then eval rho a else eval rho b
    | ENotNone e => v <- eval rho e ;; Ok (VBool match v with VNone => false | _ => true end)
    | EIn k e => v <- eval rho e ;; b <- py_in P k v ;; Ok (VBool b)
    | EInAliases e ks => v <- eval rho e ;; b <- exists_by_aliases P v ks ;; Ok (VBool b)
    | EAnd a b => v <- eval rho a ;; if truthy (enum_scalar P) v then eval rho b else Ok v
    | EIsInst e t => v <- eval rho e ;; t' <- resolve P (x_g cx) t ;; Ok (VBool (named_inst P v t'))
    | EReuse => Ok (VBool (x_reuse cx))
    | EConv => Ok (VBool (x_conv cx))
    | EHasNum => Ok (VBool (has_some (x_dn cx)))
    | EComp k e it =>
        v <- eval rho it ;; l <- iter P v ;;
        l' <- mapM (fun x => eval (("v", x) :: rho) e) l ;;
        mk_seq P k l'
    | EMapComp ek ev it =>
        v <- eval rho it ;; l <- items v ;;
        l' <- mapM (fun kv =>
                let rho' := ("k", fst kv) :: ("v", snd kv) :: rho in
                k <- eval rho' ek ;; x <- eval rho' ev ;;
                if hashable P k then Ok (k, x) else Raise XType) l ;;
        m <- mk_map P l' ;;
        Ok (VMap MDict m)
    | ETuple l => l' <- mapM (eval rho) l ;; Ok (VSeq KTuple l')
    | EBuiltin b e =>
        v <- eval rho e ;;
        match b with
        | BkList => l <- iter P v ;; Ok (VSeq KList l)
        | BkSet => l <- iter P v ;; mk_seq P KSet l
        | BkTuple => l <- iter P v ;; Ok (VSeq KTuple l)
        | BkDeque => l <- iter P v ;; Ok (VSeq KDeque l)
        | BkDict => match v with VMap _ l => Ok (VMap MDict l) | _ => Raise XType end
        | BkCounter => mk_counter P v
        end
    | EDefDict f e =>
        if builtin_factory f || has_some (slookup f (x_g cx)) then
          v <- eval rho e ;;
          match v with VMap _ l => Ok (VMap (MDefault f) l) | _ => Raise XType end
        else Raise XName
    | ECoerce c f t e =>
        t' <- resolve P (x_g cx) t ;; v <- eval rho e ;; coerce_object P W c f t' v
    | EEnumVal t e =>
        t' <- resolve P (x_g cx) t ;; v <- eval rho e ;;
        match t' with TEnum c => enum_value P c v | _ => Raise XAttr end
    | EDeEnum t e =>
        t' <- resolve P (x_g cx) t ;; v <- eval rho e ;;
        match t' with TEnum c => deserialize_enum P W c v | _ => Raise XAttr end
    | EStr e => v <- eval rho e ;; Ok (VStr (py_str P W v))
    | EIso e => v <- eval rho e ;; match v with VDate _ s => Ok (VStr s) | _ => Raise XAttr end
    | EFromIso t e =>
        t' <- resolve P (x_g cx) t ;; v <- eval rho e ;;
        match t' with TDate k => w_iso W k v | _ => Raise XAttr end
    | ECtor t e => t' <- resolve P (x_g cx) t ;; v <- eval rho e ;; call_ctor P W t' v
    | EFn f e =>
        match fn_lookup f with
        | Some (GFun g) => v <- eval rho e ;; g v
        | Some (GSkip _) => Raise XType
        | None => Raise XName
        end
    | EClsSer n e =>
        v <- eval rho e ;;
        s <- of_option XIndex (nth_opt (class_sers P (c_class_ser (x_cls cx))) n) ;; cs_fn s v
    | EClsDe n t e =>
        t' <- resolve P (x_g cx) t ;; v <- eval rho e ;;
        s <- of_option XIndex (nth_opt (class_des P (c_class_de (x_cls cx))) n) ;; cd_fn s t' v
    | ELegacySe t e d =>
        t' <- resolve P (x_g cx) t ;; v <- eval rho e ;;
        match c_serializer (x_cls cx) with
        | Some f => match f t' v with Raise XSkip => eval rho d | r => r end
        | None => Raise XName
        end
    | ELegacyDe t e d =>
        t' <- resolve P (x_g cx) t ;; v <- eval rho e ;;
        match c_deserializer (x_cls cx) with
        | Some f => match f t' v with Raise XSkip => eval rho d | r => r end
        | None => Raise XName
        end
    | EToObj e =>
        v <- eval rho e ;; call (QToObj v true (Some false) (Some false) (x_skip cx) (Some (TagExternal, TAny)))
    | EFromGen idx e named =>
        t <- get_generic_arg (x_mg cx) (x_mgtv cx) (x_vta cx) idx ;;
        v <- eval rho e ;;
        call (QFromObj (TagExternal, t) v named (Some (x_reuse cx)) (x_dn cx))
    | ESeFn e named =>
        v <- eval rho e ;;
        match v with
        | VObj c _ => d <- of_option XAttr (get_class P c) ;;
                      call (QSe d v named (Some (x_reuse cx)) (Some (x_conv cx)) (x_skip cx))
        | _ => Raise XAttr
        end
    | EDeFn tgt e named ta =>
        d <- match tgt with
             | DtCls => Ok (x_cls cx)
             | DtName t =>
               t' <- resolve P (x_g cx) t ;;
               match t' with TClass c => of_option XAttr (get_class P c) | _ => Raise XAttr end
             end ;;
        v <- eval rho e ;;
        call (QDe d v named (Some (x_reuse cx)) (x_dn cx) (x_mg cx) (x_mgtv cx) ta)
    | EUnionSe f e => v <- eval rho e ;; call (QUnionSe (x_cls cx) f v (x_reuse cx) (x_conv cx) (x_skip cx))
    | EUnionDe f e => v <- eval rho e ;; call (QUnionDe (x_cls cx) f v (x_reuse cx) (x_dn cx))
    | ELitDe f e =>
        match literal_args f with
        | None => Raise XKey
        | Some l =>
          _ <- render_literal_de l ;;
          v <- eval rho e ;;
          if existsb (fun x => eqv P (lit_val x) v) l then Ok v else Raise (XSerde MLiteral)
        end
    | ENum e => match x_dn cx with
                | Some h => v <- eval rho e ;; h v
                | None => Raise XType
                end
    | EDefault f => default_of f
    end.

  (** The skip_if predicate of a field applied to the serialized value, core.py:562-586 *)
  Definition run_skip (s : skipfn) (v : pyval) : res bool :=
    match s with
    | SkUser f => f v
    | SkFalse => Ok (negb (truthy (enum_scalar P) v))
    | SkNone => Ok match v with VNone => true | _ => false end
    | SkDefault None => Ok false
    | SkDefault (Some d) =>
        sd <- match d with
              | VObj _ _ => catch (call (QToObj d true None None false None)) (fun _ => Ok (asdict_std d))
              | _ => Ok d
              end ;;
        Ok (eqv P v sd)
    end.

  Definition tuple_of (l : list pyval) : pyval :=
    match l with [v] => v | _ => VSeq KTuple l end.

  Definition assign1 (m : list (pyval * pyval)) (tv : target * pyval) : list (pyval * pyval) :=
    match fst tv with
    | TgtKey k => dset (enum_scalar P) m (VStr k) (snd tv)
    | TgtFlat => m
    end.

  (** targets = subres *)
  Definition assign (ts : list target) (v : pyval) (m : list (pyval * pyval)) : res (list (pyval * pyval)) :=
    match ts with
    | [] => Raise XSyntax
    | [t] => Ok (assign1 m (t, v))
    | _ =>
      l <- iter P v ;;
      if Nat.eqb (List.length l) (List.length ts)
      then Ok (fold_left assign1 (combine ts l) m)
      else Raise XValue
    end.

  (** One field of the dict template, se.py:662-683 *)
  Definition run_sstmt (rho : env) (m : list (pyval * pyval)) (s : sstmt) : res (list (pyval * pyval)) :=
    l <- mapM (eval rho) (s_rhs s) ;;
    let v := tuple_of l in
    match s_targets s with
    | [TgtFlat] =>
      if truthy (enum_scalar P) v then
        kvs <- items v ;;
        Ok (fold_left (fun m kv => if dmem (enum_scalar P) m (fst kv) then m else m ++ [kv]) kvs m)
      else Ok m
    | ts =>
      match s_skip s with
      | Some nm =>
        match fn_lookup nm with
        | Some (GSkip p) => b <- run_skip p v ;; if (b : bool) then Ok m else assign ts v m
        | _ => Raise XName
        end
      | None =>
        if x_skip cx then match v with VNone => Ok m | _ => assign ts v m end
        else assign ts v m
      end
    end.

  Definition run_se_body (b : sebody) (obj : pyval) : res pyval :=
    let rho := [("obj", obj)] in
    match b with
    | SbDict l => m <- foldM (run_sstmt rho) l [] ;; Ok (VMap MDict m)
    | SbTransparent rhs => l <- mapM (eval rho) rhs ;; Ok (tuple_of l)
    | SbTuple l => ls <- mapM (mapM (eval rho)) l ;; Ok (VSeq KTuple (concat ls))
    end.

  (** One statement of the dict template of from_dict, de.py:1382-1410 *)
  Definition run_dstmt (data : pyval) (extra : list (pyval * pyval)) (vals : env) (s : dstmt) : res env :=
    match s with
    | DsExtra x => Ok (vals ++ [(x, VMap MDict extra)])
    | DsField x proj e missing =>
      rho <- match proj with
             | Some p => fd <- project_flat P p data ;; Ok [(flat_var x, fd); ("data", data)]
             | None => Ok [("data", data)]
             end ;;
      match missing, eval rho e with
      | _, Ok v => Ok (vals ++ [(x, v)])
      | Some k, Raise XKey => Raise (XSerde (MMissing k (c_name (x_cls cx))))
      | _, Raise e => Raise e
      | _, NoFuel => NoFuel
      end
    end.

  Definition split_args (vals : env) (args : list ctor_arg) : list pyval * list (string * pyval) :=
    let val x := match slookup x vals with Some v => v | None => VNone end in
    (map (fun a => val (fst a)) (filter (fun a => negb (snd a)) args),
     map (fun a => (fst a, val (fst a))) (filter (fun a => snd a) args)).

  Definition run_ctor (vals : env) (args : list ctor_arg) : res pyval :=
    let (pos, kws) := split_args vals args in construct_user P W (x_cls cx) pos kws.

  Definition run_de_body (b : debody) (data : pyval) : res pyval :=
    match b with
    | DbDict deny extra l args =>
      _ <- match deny with
           | Some known =>
             kvs <- items_or_empty P data ;;
             if forallb (fun kv => key_in P (fst kv) known) kvs then Ok tt
             else Raise (XSerde (MUnknown known))
           | None => Ok tt
           end ;;
      ex <- match extra with
            | Some known =>
              kvs <- items_or_empty P data ;;
              Ok (filter (fun kv => negb (key_in P (fst kv) known)) kvs)
            | None => Ok []
            end ;;
      vals <- foldM (run_dstmt data ex) l [] ;;
      run_ctor vals args
    | DbTransparent x named e arg =>
      let rho := if named then [("fake_dict", VMap MDict [(VStr "__serde_transparent__", data)]); ("data", data)]
                 else [("fake_data", VSeq KTuple [data]); ("data", data)] in
      v <- eval rho e ;;
      run_ctor [(x, v)] [arg]
    | DbIter l args =>
      vals <- mapM (fun xe => v <- eval [("data", data)] (snd xe) ;; Ok (fst xe, v)) l ;;
      run_ctor vals args
    end.

  (** is_taggable, core.py:989 *)
  Definition taggable (t : pytype) : bool := match t with TClass _ => true | _ => false end.

  (** The union template of se.py:731-757 *)
  Fixpoint run_union_se (arms : list (pytype * expr)) (obj : pyval) : res pyval :=
    match arms with
    | [] => Raise (XSerde MUnionSe)
    | (t, e) :: r =>
      if is_instance P W obj t then
        v <- eval [("obj", obj)] e ;;
        let name := typename P t in
        if taggable t then
          match c_tagging (x_cls cx) with
          | TagExternal => Ok (VMap MDict [(VStr name, v)])
          | TagInternal tag =>
            match v with
            | VMap k l => Ok (VMap k (dset (enum_scalar P) l (VStr tag) (VStr name)))
            | _ => Raise XType
            end
          | TagAdjacent tag content =>
            Ok (VMap MDict (dset (enum_scalar P) [(VStr content, v)] (VStr tag) (VStr name)))
          | Untagged => Ok v
          end
        else Ok v
      else run_union_se r obj
    end.

  Definition ensure (b : bool) : res unit := if b then Ok tt else Raise XExc.

  (** Data of one arm after the tag checks, de.py:1452-1470 *)
  Definition arm_data (t : pytype) (data : pyval) : res pyval :=
    let name := typename P t in
    if taggable t then
      match c_tagging (x_cls cx) with
      | TagExternal => b <- py_in P name data ;; _ <- ensure b ;; getitem P data name
      | TagInternal tag =>
        b <- py_in P tag data ;; _ <- ensure b ;;
        x <- getitem P data tag ;; _ <- ensure (eqv P (VStr name) x) ;; Ok data
      | TagAdjacent tag content =>
        b <- py_in P tag data ;; _ <- ensure b ;;
        b <- py_in P content data ;; _ <- ensure b ;;
        x <- getitem P data tag ;; _ <- ensure (eqv P (VStr name) x) ;; getitem P data content
      | Untagged => Ok data
      end
    else Ok data.

  Definition run_arm (t : pytype) (e : expr) (data : pyval) : res pyval :=
    d <- arm_data t data ;;
    _ <- (if is_primitive P t || is_none t then
            t' <- resolve P (x_g cx) t ;; if bear P W d t' then Ok tt else Raise XExc
          else Ok tt) ;;
    r <- eval [("fake_dict", VMap MDict [(VStr "fake_key", d)]); ("data", data)] e ;;
    t' <- resolve P (x_g cx) t ;;
    _ <- ensure (bear P W r t') ;;
    Ok r.

  (** The union template of de.py:1444-1489 *)
  Fixpoint run_union_de (arms : list (pytype * expr)) (data : pyval) : res pyval :=
    match arms with
    | [] => Raise (XSerde MUnionDe)
    | (t, e) :: r => catch (run_arm t e data) (fun _ => run_union_de r data)
    end.
End Eval.

(** * Calls *)

(** Wrapper dataclass with one field [v], core.py:119-138, 166-181. *)
Definition wrapper (P : program) (name : string) (t : pytype) (tg : tagging) : classdef :=
  {| c_id := String "W" (fold_right (fun d s => (c_id d ++ s)%string) "" (p_classes P));
     c_name := name;
     c_fields := [{| f_name := "v"; f_type := t; f_default := None; f_init := true; f_kw_only := false;
       f_rename := None; f_alias := []; f_skip := false; f_skip_se := false; f_skip_de := false;
       f_skip_if := None; f_skip_if_false := false; f_skip_if_none := None; f_skip_if_default := None;
       f_serializer := None; f_deserializer := None; f_flatten := false |}];
     c_mro := []; c_rename_all := None; c_reuse := true; c_conv := false;
     c_skip_if_default := false; c_skip_if_none := false; c_serializer := None; c_deserializer := None;
     c_tagging := tg; c_check := TcStrict; c_ser_class_var := false; c_class_vars := [];
     c_transparent := false; c_class_ser := None; c_class_de := None; c_deny := false;
     c_tvars := None; c_post := fun o => Ok o; c_hashable := false |}.

Definition tagging_eqb (a b : tagging) : bool :=
  match a, b with
  | TagExternal, TagExternal | Untagged, Untagged => true
  | TagInternal x, TagInternal y => String.eqb x y
  | TagAdjacent x y, TagAdjacent x' y' => String.eqb x x' && String.eqb y y'
  | _, _ => false
  end.

Section Run.
  Variables (P : program) (W : world).
  (** Unions for which CACHE already holds a wrapper (core.py:114), i.e. the calls made before. *)
  Variable K : list (tagging * pytype).

  Definition union_args (t : pytype) : list pytype := match t with TUnion l => l | _ => [] end.

  (** _get_union_class, core.py:156-181 *)
  Definition union_wrapper (tg : tagging) (t : pytype) : classdef :=
    let t' := match find (fun k => tagging_eqb (fst k) tg && ty_eqb (snd k) t) K with
              | Some k => snd k
              | None => t
              end in
    wrapper P (union_func_name P "Union" (union_args t')) t' tg.

  Definition unalias (t : pytype) : pytype := match t with TAlias _ a => a | _ => t end.

  Definition se_ctx (d : classdef) (fns : list (string * gfun)) (reuse conv skip : bool) : ctx :=
    mkCtx d (se_globals P d) fns reuse conv skip None None None None.
  Definition de_ctx (d : classdef) (reuse : bool) (dn : option numhook) (mg : option pytype) (mgtv vta : option (list string)) : ctx :=
    mkCtx d (de_globals P d) (de_fns d) reuse false false dn mg mgtv vta.

  Definition first_ser (o : pyval) : option clsser :=
    find (fun s => existsb (type_is o) (cs_types s)) (p_sers P).
  Definition first_de (t : pytype) : option clsde :=
    find (fun s => ty_mem t (cd_types s)) (p_des P).

  Definition find_union (d : classdef) (prefix f : string) : option (list pytype) :=
    option_map union_args
      (find (fun u => String.eqb (union_func_name P prefix (union_args u)) f) (rev (iter_unions P d))).

  (** from_obj for a float class, de.py:625 *)
  Definition from_float (dn : option numhook) (t : pytype) (o : pyval) : res pyval :=
    match dn with Some h => h o | None => call_ctor P W t o end.

  Section Step.
    Variable call : callreq -> res pyval.

    (** to_obj without the outer try, se.py:407-464 *)
    Definition to_obj_body (o : pyval) (named : bool) (reuse conv : option bool) (skip : bool) (c : option (tagging * pytype)) : res pyval :=
      let c := option_map (fun tc => (fst tc, unalias (snd tc))) c in
      let this e := call (QToObj e named reuse conv skip None) in
      let plain :=
        match o with
        | VNone => Ok VNone
        | _ =>
          match first_ser o with
          | Some s => cs_fn s o
          | None =>
            match o with
            | VObj k _ => d <- of_option XAttr (get_class P k) ;; call (QSe d o named reuse conv skip)
            | VSeq KList l => l' <- mapM this l ;; Ok (VSeq KList l')
            | VSeq KTuple l => l' <- mapM this l ;; Ok (VSeq KTuple l')
            | VMap _ l => l' <- mapM (fun kv => x <- this (snd kv) ;; Ok (fst kv, x)) l ;; Ok (VMap MDict l')
            | VSeq _ l => l' <- mapM this l ;; Ok (VSeq KList l')
            | VInst k _ | VDate k _ =>
              let own := match o with VInst _ _ => TStr k | _ => TDate k end in
              let t := match c with None | Some (_, TAny) => own | Some (_, t) => t end in
              let d := wrapper P ("Wrapper" ++ typename P t)%string t TagExternal in
              w <- construct P W d [o] [] ;;
              r <- call (QSe d w true reuse conv skip) ;;
              getitem P r "v"
            | _ => Ok o
            end
          end
        end in
      match c with
      | Some (tg, TUnion l as t) =>
        if is_opt t then plain
        else call (QUnionSe (union_wrapper tg t) (union_func_name P "union_se" l) o false false false)
      | _ => plain
      end.

    Definition from_obj_body (t mg : pytype) (o : pyval) (named : bool) (reuse : option bool) (dn : option numhook) : res pyval :=
      let this c e := call (QFromObj (TagExternal, c) e named reuse dn) in
      match first_de t with
      | Some s => cd_fn s t o
      | None =>
        match t with
        | TClass c => d <- of_option XAttr (get_class P c) ;; call (QDe d o named reuse dn (Some mg) None None)
        | TUnion (a :: _) => match o with VNone => Ok VNone | _ => this a o end
        | TBare (BList _) => l <- iter P o ;; Ok (VSeq KList l)
        | TList _ a => l <- iter P o ;; l' <- mapM (this a) l ;; Ok (VSeq KList l')
        | TBare (BSet _) => l <- iter P o ;; mk_seq P KSet l
        | TSet k a =>
          l <- iter P o ;; l' <- mapM (this a) l ;;
          mk_seq P match k with SkFrozen => KFrozen | _ => KSet end l'
        | TBare BDeque => l <- iter P o ;; Ok (VSeq KDeque l)
        | TDeque a => l <- iter P o ;; l' <- mapM (this a) l ;; Ok (VSeq KDeque l')
        | TBare BCounter => mk_counter P o
        | TCounter a =>
          l <- items o ;; l' <- mapM (fun kv => k <- this a (fst kv) ;; Ok (k, snd kv)) l ;;
          m <- mk_map P l' ;; Ok (VMap MCounter m)
        | TBare BTuple | TVarTuple _ => l <- iter P o ;; Ok (VSeq KTuple l)
        | TTuple ts =>
          l <- iter P o ;;
          l' <- mapMi_from (fun i e => a <- of_option XIndex (nth_opt ts i) ;; this a e) 0 l ;;
          Ok (VSeq KTuple l')
        | TBare (BDict DkDefault) => Raise XIndex
        | TBare (BDict _) => Ok o
        | TDict k a b =>
          l <- items o ;;
          l' <- mapM (fun kv => k <- this a (fst kv) ;; v <- this b (snd kv) ;; Ok (k, v)) l ;;
          m <- mk_map P l' ;;
          Ok (VMap match k with DkDefault => MDefault (factory_name P b) | _ => MDict end m)
        | TDate k => w_iso W k o
        | TPrim PFloat | TPrimSub _ PFloat => from_float dn t o
        | TAny => Ok o
        | _ => call_ctor P W t o
        end
      end.

    Definition step (q : callreq) : res pyval :=
      match q with
      | QSe d obj named reuse conv skip =>
        body <- render_se P W d named ;;
        fns <- se_fns P (class_fuel P) d ;;
        match obj with
        | VObj _ _ =>
          run_se_body P W call (se_ctx d fns (flag reuse (c_reuse d)) (flag conv (c_conv d)) skip) body obj
        | _ => Ok obj
        end
      | QDe d data named reuse dn mg mgtv vta =>
        body <- render_de P W d named ;;
        let mgtv' := match mgtv with Some (_ :: _) => mgtv | _ => c_tvars d end in
        run_de_body P W call (de_ctx d (flag reuse (c_reuse d)) dn mg mgtv' vta) body data
      | QUnionSe d f obj reuse conv skip =>
        args <- of_option XKey (find_union d "union_se" f) ;;
        arms <- render_union_se P d args ;;
        fns <- se_fns P (class_fuel P) d ;;
        run_union_se P W call (se_ctx d fns reuse conv skip) arms obj
      | QUnionDe d f data reuse dn =>
        args <- of_option XKey (find_union d "union_de" f) ;;
        arms <- render_union_de P W d args ;;
        run_union_de P W call (de_ctx d reuse dn None None None) arms data
      | QToObj o named reuse conv skip c =>
        catch (to_obj_body o named reuse conv skip c) (fun e => Raise (XSerde (MWrap e)))
      | QFromObj c o named reuse dn =>
        let (tg, t0) := c in
        let t := unalias t0 in
        if type_is o t then Ok o
        else if is_union t && negb (is_opt t) then
          let d := union_wrapper tg t in
          call (QUnionDe d (union_func_name P "union_de" (union_args t)) o (c_reuse d) dn)
        else
          let t' := match t with TGen k _ => TClass k | _ => t end in
          catch (from_obj_body t' t o named reuse dn)
                (fun e => match e with XUser e => Raise e | _ => Raise (XSerde (MWrap e)) end)
      end.
  End Step.

  (** Running a call with [n] nested calls allowed. *)
  Fixpoint run (n : nat) (q : callreq) : res pyval :=
    match n with
    | O => NoFuel
    | S n => step (run n) q
    end.

  (** * The public functions *)

  (** to_dict / to_tuple, se.py:472-582; [c]: the optional class argument *)
  Definition to_dict (n : nat) (o : pyval) (c : option (tagging * pytype)) (reuse conv : option bool) (skip : bool) : res pyval :=
    run n (QToObj o true reuse conv skip c).
  Definition to_tuple (n : nat) (o : pyval) (c : option (tagging * pytype)) (reuse conv : option bool) (skip : bool) : res pyval :=
    run n (QToObj o false reuse conv skip c).
  (** from_dict / from_tuple, de.py:663-745 *)
  Definition from_dict (n : nat) (c : tagging * pytype) (o : pyval) (reuse : option bool) (dn : option numhook) : res pyval :=
    run n (QFromObj c o true reuse dn).
  Definition from_tuple (n : nat) (c : tagging * pytype) (o : pyval) (reuse : option bool) (dn : option numhook) : res pyval :=
    run n (QFromObj c o false reuse dn).
End Run.
