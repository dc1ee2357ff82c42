(** What generated expressions depend on: an expression all of whose uses of the input go through
    given parts ([leaf]) has the same outcome in environments that agree on these parts. *)
From Coq Require Import String List ZArith Bool Ascii Lia.
From Verif Require Import Base PyVal PyType Program Compat Syntax SeRender DeRender Eval Facts Mono.
Import ListNotations.
Open Scope string_scope.
Open Scope list_scope.

Section Okx.
  (** [leaf]: expressions taken as a whole; [var_ok]: variables that may be used freely;
      [calls]: calls that pass skip_none on are allowed *)
  Variables (leaf : expr -> Prop) (var_ok : string -> Prop) (calls : Prop).

  Fixpoint okx (e : expr) : Prop :=
    leaf e \/
    match e with
    | EVar x => var_ok x
    | ENone | EReuse | EConv | EHasNum | EDefault _ => True
    | EAliases _ _ => False
    | EAttr e _ | EKey e _ | EIdx e _ | ESlice e _ | EGet e _ | ENotNone e | EIn _ e | EInAliases e _
    | EIsInst e _ | EBuiltin _ e | EDefDict _ e | ECoerce _ _ _ e | EEnumVal _ e | EDeEnum _ e | EStr e
    | EIso e | EFromIso _ e | ECtor _ e | EFn _ e | EClsSer _ e | EClsDe _ _ e | EFromGen _ e _
    | EDeFn _ e _ _ | EUnionDe _ e | ELitDe _ e | ENum e => okx e
    | EToObj e | ESeFn e _ | EUnionSe _ e => calls /\ okx e
    | EAnd a b | EComp _ a b | ELegacySe _ a b | ELegacyDe _ a b => okx a /\ okx b
    | EIf a b c | EMapComp a b c => okx a /\ okx b /\ okx c
    | ETuple l => (fix all l := match l with [] => True | e :: r => okx e /\ all r end) l
    end.

  Lemma okx_leaf e : leaf e -> okx e.
  Proof. destruct e; simpl; auto. Qed.

  Lemma okx_all l : (fix all l := match l with [] => True | e :: r => okx e /\ all r end) l <-> Forall okx l.
  Proof.
    induction l; split; intros H; try constructor; try apply H.
    - apply IHl, H. - inversion H; auto. - apply IHl. now inversion H.
  Qed.
End Okx.

Definition set_skip (b : bool) (cx : ctx) : ctx :=
  mkCtx (x_cls cx) (x_g cx) (x_fns cx) (x_reuse cx) (x_conv cx) b (x_dn cx) (x_mg cx) (x_mgtv cx) (x_vta cx).

Section EvalOkx.
  Variables (P : program) (W : world) (call : callreq -> res pyval) (cx : ctx) (b : bool).
  Variables (leaf : expr -> Prop) (var_ok : string -> Prop) (calls : Prop).
  Variable R : env -> env -> Prop.
  Hypothesis Hcalls : calls -> x_skip cx = b.
  Hypothesis Rvar : forall rho rho' x, R rho rho' -> var_ok x -> slookup x rho = slookup x rho'.
  Hypothesis Rv : forall rho rho' x, R rho rho' -> R (("v", x) :: rho) (("v", x) :: rho').
  Hypothesis Rk : forall rho rho' x, R rho rho' -> R (("k", x) :: rho) (("k", x) :: rho').
  Notation ev1 := (eval P W call cx).
  Notation ev2 := (eval P W call (set_skip b cx)).
  Hypothesis Hleaf : forall e rho rho', leaf e -> R rho rho' -> ev1 rho e = ev2 rho' e.

  Lemma eval_okx : forall e, okx leaf var_ok calls e -> forall rho rho', R rho rho' -> ev1 rho e = ev2 rho' e.
  Proof.
    induction e using expr_ind'; intros H0 rho rho' HR; cbn [okx] in H0;
      (destruct H0 as [HL|H0]; [now apply Hleaf|]);
      try contradiction; try reflexivity; cbn [eval];
      try (rewrite (IHe H0 rho rho' HR); reflexivity);
      try (destruct H0 as [Hc H0]; rewrite (IHe H0 rho rho' HR), (Hcalls Hc); reflexivity).
    - now rewrite (Rvar _ _ _ HR H0).
    - destruct H0 as (A & B & C). rewrite (IHe1 A _ _ HR), (IHe2 B _ _ HR), (IHe3 C _ _ HR). reflexivity.
    - destruct H0 as (A & B). rewrite (IHe1 A _ _ HR), (IHe2 B _ _ HR). reflexivity.
    - destruct H0 as (A & B). rewrite (IHe2 B _ _ HR).
      destruct (ev2 rho' e2); cbn [bind]; try reflexivity. destruct (iter P a); cbn [bind]; try reflexivity.
      rewrite (mapM_ext (fun x => ev1 (("v", x) :: rho) e1) (fun x => ev2 (("v", x) :: rho') e1)); [reflexivity|].
      intros x _. apply IHe1; auto.
    - destruct H0 as (A & B & C). rewrite (IHe3 C _ _ HR).
      destruct (ev2 rho' e3); cbn [bind]; try reflexivity. destruct (items a); cbn [bind]; try reflexivity.
      match goal with |- bind ?m _ = bind ?m' _ => assert (E : m = m'); [|rewrite E; reflexivity] end.
      apply mapM_ext. intros [x y] _. cbn [fst snd]. rewrite (IHe1 A (("k", x) :: ("v", y) :: rho) (("k", x) :: ("v", y) :: rho')) by auto.
      rewrite (IHe2 B (("k", x) :: ("v", y) :: rho) (("k", x) :: ("v", y) :: rho')) by auto. reflexivity.
    - apply okx_all in H0.
      match goal with |- bind ?m _ = bind ?m' _ => assert (E : m = m'); [|rewrite E; reflexivity] end.
      apply mapM_ext. intros x Hx. rewrite Forall_forall in H, H0. apply H; auto.
    - destruct H0 as (A & B). rewrite (IHe1 A _ _ HR), (IHe2 B _ _ HR). reflexivity.
    - destruct H0 as (A & B). rewrite (IHe1 A _ _ HR), (IHe2 B _ _ HR). reflexivity.
  Qed.
End EvalOkx.

(** * Serialization *)

(** No conversion of a nested object is involved. *)
Fixpoint nocall (t : pytype) : bool :=
  match t with
  | TClass _ | TGen _ _ | TAny | TVar _ => false
  | TUnion l => is_opt t && forallb nocall l
  | TTuple l => forallb nocall l
  | TList _ a | TSet _ a | TDeque a | TCounter a | TVarTuple a | TClassVar a | TAlias _ a => nocall a
  | TDict _ a b => nocall a && nocall b
  | _ => true
  end.

Section SeOkx.
  Variables (P : program) (W : world).
  Variables (leaf : expr -> Prop) (var_ok : string -> Prop) (calls : Prop).
  Hypothesis Vv : var_ok "v".
  Hypothesis Vk : var_ok "k".
  Notation ok := (okx leaf var_ok calls).

  Lemma legacy_okx cfg hs av t var e : ok var -> ok e -> ok (legacy_wrap cfg hs av t var e).
  Proof. intros. unfold legacy_wrap. destruct (_ && _); auto. cbn [okx]. right; auto. Qed.

  Lemma se_class_okx cfg hs c var : calls -> ok var -> ok (se_class P cfg hs c var).
  Proof.
    intros C V. unfold se_class.
    assert (ok (ESeFn var (r_named cfg))) by (cbn [okx]; right; auto).
    destruct (find_ser _ _ _); [destruct hs|].
    - now apply legacy_okx. - cbn [okx]; now right. - now apply legacy_okx.
  Qed.

  Lemma se_tuple_okx cfg hs var l :
    Forall (fun t => forall v e, ok v -> se_ty P cfg hs v t = Ok e -> ok e) l -> ok var -> forall n es,
    (fix go n l := match l with
                   | [] => Ok []
                   | a :: r => e <- se_ty P cfg hs (EIdx var n) a ;; es <- go (S n) r ;; Ok (e :: es)
                   end) n l = Ok es -> Forall ok es.
  Proof.
    intros H V. induction H as [|t l Ht Hl IH]; intros n es E; [injection E as <-; constructor|].
    inv_bind E. inv_bind E. injection E as <-. constructor; [|eapply IH; eassumption].
    eapply Ht; [|eassumption]. cbn [okx]; auto.
  Qed.

  Lemma se_ty_okx cfg hs t : (calls \/ nocall t = true) -> forall var e, ok var -> se_ty P cfg hs var t = Ok e -> ok e.
  Proof.
    induction t using pytype_ind'; intros HC var ex V HE; cbn [se_ty] in HE;
      (destruct (find_ser P (r_class_ser cfg) _) eqn:F; [destruct hs; [|injection HE as <-; cbn [okx]; right; exact V]|]);
      try discriminate HE;
      try (injection HE as <-; repeat apply legacy_okx; auto; cbn [okx]; auto; fail);
      try (destruct HC as [HC|HC]; [|discriminate HC]; injection HE as <-; repeat apply legacy_okx; auto;
           first [apply se_class_okx; auto|cbn [okx]; auto]; fail);
      try (cbn [nocall] in HC; inv_bind HE; injection HE as <-; apply legacy_okx; auto;
           try destruct b; try destruct k; try destruct (r_suppress cfg); cbn [okx];
           repeat match goal with H : bind _ _ = Ok _ |- _ => inv_bind H end;
           repeat match goal with H : Ok _ = Ok _ |- _ => injection H as <- end; try discriminate;
           match goal with IH : context [calls \/ _ -> _] |- _ => idtac | _ => cbn [okx]; auto 10 end;
           repeat match goal with IH : calls \/ _ -> forall var e, okx _ _ _ var -> se_ty _ _ _ _ _ = Ok e -> _, E : se_ty _ _ _ _ _ = Ok _ |- _ => apply IH in E; [|assumption|cbn [okx]; auto] end;
           cbn [okx]; auto 10; fail).
    1,2: inv_bind HE; injection HE as <-; apply legacy_okx; auto; destruct (is_opt (TUnion l)) eqn:O;
      [destruct l as [|a9 l]; [discriminate|]; inv_bind Hb; injection Hb as <-;
       inversion H as [|? ? Ha ?]; subst; cbn [okx]; right; (split; [right; exact V|split; [|right; exact I]]);
       (eapply Ha; [|exact V|exact Hb0]; destruct HC as [HC|HC]; [now left|right];
        cbn [nocall] in HC; apply andb_prop in HC as [_ HC]; cbn [forallb] in HC; now apply andb_prop in HC)
      |injection Hb as <-; destruct HC as [HC|HC];
       [cbn [okx]; right; auto|cbn [nocall] in HC; rewrite O in HC; discriminate]].
    1,2: assert (HC1 : calls \/ nocall t1 = true) by (destruct HC as [HC|HC]; [now left|right; cbn [nocall] in HC; now apply andb_prop in HC]);
      assert (HC2 : calls \/ nocall t2 = true) by (destruct HC as [HC|HC]; [now left|right; cbn [nocall] in HC; now apply andb_prop in HC]);
      inv_bind HE; injection HE as <-; apply legacy_okx; auto; inv_bind Hb; inv_bind Hb; injection Hb as <-;
      apply IHt1 in Hb0; [|assumption|cbn [okx]; auto]; apply IHt2 in Hb1; [|assumption|cbn [okx]; auto];
      cbn [okx]; right; auto.
    1,2: inv_bind HE; injection HE as <-; apply legacy_okx; auto; destruct l as [|t0 l]; [discriminate|];
      inv_bind Hb; injection Hb as <-; cbn [okx]; right; apply okx_all; eapply (se_tuple_okx _ _ _ (t0 :: l)) with (n := 0); [|exact V|exact Hb0];
      rewrite Forall_forall in H |- *; intros t Ht; apply H; auto; destruct HC as [HC|HC]; [now left|right];
      cbn [nocall] in HC; rewrite forallb_forall in HC; auto.
  Qed.

  (** A field that is not flattened, or a flattened mapping *)
  Definition own_level (f : fielddef) : Prop := f_flatten f = false \/ is_flatten_dict (f_type f) = true.

  Lemma se_field_own n cfg f parent : own_level f -> se_field P n cfg f parent =
    match find_ser P (r_class_ser cfg) (f_type f), f_serializer f with
    | Some k, None => Ok [EClsSer k (EAttr parent (f_name f))]
    | _, Some (FFun _) => Ok [EFn (mangle (f_name f) "serializer") (EAttr parent (f_name f))]
    | _, _ => e <- se_ty P cfg (has_some (f_serializer f)) (EAttr parent (f_name f)) (f_type f) ;; Ok [e]
    end.
  Proof.
    assert (D : is_flatten_dict (f_type f) = true -> opt_arg (f_type f) = None /\ (forall c, f_type f <> TClass c)).
    { destruct (f_type f); try discriminate; split; easy. }
    intros FL. assert (F : f_flatten f = false \/ (opt_arg (f_type f) = None /\ forall c, f_type f <> TClass c)) by (destruct FL; auto).
    clear D FL. destruct n; cbn [se_field]; destruct (find_ser P (r_class_ser cfg) (f_type f)); destruct (f_serializer f) as [[|g]|]; try reflexivity;
      (destruct F as [->|[O N]]; [reflexivity|]); destruct (f_flatten f); try reflexivity;
      (destruct (f_type f) eqn:T; try reflexivity; try (rewrite O; reflexivity); destruct (N _ eq_refl)).
  Qed.

  Lemma se_field_okx n cfg f parent es :
    own_level f -> (calls \/ nocall (f_type f) = true) -> ok (EAttr parent (f_name f)) ->
    se_field P n cfg f parent = Ok es -> exists e, es = [e] /\ ok e.
  Proof.
    intros FL HC V E. rewrite se_field_own in E by exact FL.
    destruct (find_ser P (r_class_ser cfg) (f_type f)), (f_serializer f) as [[|g]|];
      try (injection E as <-; eexists; split; [reflexivity|]; cbn [okx]; right; exact V);
      inv_bind E; injection E as <-; eexists; (split; [reflexivity|]); eapply se_ty_okx; eauto.
  Qed.
End SeOkx.

(** * Deserialization *)

Section DeCore.
  Variables (P : program) (W : world).

  (** The cases of [de_ty] without class deserializer, generics and defaults *)
  Definition de_gcore (cfg : decfg) (a : dearg) (t : pytype) : res expr :=
    let rec := de_ty P W cfg in
    let vinner := inner_arg a "v" (EVar "v") in
    let kinner := inner_arg a "k" (EVar "k") in
    match t with
    | TClass c => de_class W cfg a c
    | TUnion l =>
        if is_opt t then
          match l with
          | x :: _ =>
            exists_ <-
              (if da_iter a || da_inner a then dat <- da_data W a t ;; Ok (ENotNone dat)
               else if da_flatten a then
                 match x with
                 | TClass c =>
                   match get_class P c with
                   | None => Raise XType
                   | Some d =>
                     es <- mapM (fun f => k <- lit (f_name f) ;; Ok (ENotNone (EGet (da_var a) k))) (c_fields d) ;;
                     and_all es
                   end
                 | _ => Raise XType
                 end
               else
                 k <- da_key W a ;;
                 match da_alias a with
                 | [] => Ok (ENotNone (EGet (da_var a) k))
                 | al => ks <- mapM lit (k :: al) ;; Ok (ENotNone (EAliases ks false))
                 end) ;;
            e <- rec (opt_inner a) x ;;
            Ok (EIf exists_ e ENone)
          | [] => Raise XIndex
          end
        else dat <- da_data W a t ;; Ok (EUnionDe (union_func_name P "union_de" l) dat)
    | TList _ x => e <- rec vinner x ;; dat <- da_data W a t ;; Ok (EComp KList e dat)
    | TBare (BList _) => dat <- da_data W a t ;; Ok (EBuiltin BkList dat)
    | TSet SkFrozen x => e <- rec vinner x ;; dat <- da_data W a t ;; Ok (EComp KFrozen e dat)
    | TSet _ x => e <- rec vinner x ;; dat <- da_data W a t ;; Ok (EComp KSet e dat)
    | TBare (BSet _) => dat <- da_data W a t ;; Ok (EBuiltin BkSet dat)
    | TDeque x => e <- rec vinner x ;; dat <- da_data W a t ;; Ok (EComp KDeque e dat)
    | TBare BDeque => dat <- da_data W a t ;; Ok (EBuiltin BkDeque dat)
    | TCounter x =>
        e <- rec kinner x ;; dat <- da_data W a t ;;
        Ok (EBuiltin BkCounter (EMapComp e (EVar "v") dat))
    | TBare BCounter => dat <- da_data W a t ;; Ok (EBuiltin BkCounter dat)
    | TDict k kt vt =>
        ek <- (if is_num_key kt then Ok (ECoerce (d_cname cfg) "k" kt (EVar "k"))
               else rec kinner kt) ;;
        ev <- rec vinner vt ;;
        dat <- da_data W a t ;;
        match k with
        | DkDefault => Ok (EDefDict (factory_name P vt) (EMapComp ek ev dat))
        | _ => Ok (EMapComp ek ev dat)
        end
    | TBare (BDict DkDefault) => Raise XIndex
    | TBare (BDict _) => da_data W a t
    | TTuple [] => Raise XSyntax
    | TTuple l =>
        dat <- da_data W a t ;;
        es <- mapMi_from (fun n x => rec (inner_arg a (show (EIdx dat n)) (EIdx dat n)) x) 0 l ;;
        Ok (ETuple es)
    | TVarTuple x =>
        dat <- da_data W a t ;;
        e <- rec (inner_arg a (show (EIdx dat 0)) (EVar "v")) x ;;
        Ok (EComp KTuple e dat)
    | TBare BTuple => dat <- da_data W a t ;; Ok (EBuiltin BkTuple dat)
    | TEnum _ => dat <- prim_data W a t ;; Ok (EDeEnum t dat)
    | TStr _ =>
        dat <- da_data W a t ;;
        Ok (EIf EReuse (EIf (EIsInst dat t) dat (ECtor t dat)) (ECtor t dat))
    | TDate _ =>
        dat <- da_data W a t ;;
        Ok (EIf EReuse (EIf (EIsInst dat t) dat (EFromIso t dat)) (EFromIso t dat))
    | TNone => Ok ENone
    | TAny => da_data W a t
    | TAlias _ x => rec a x
    | TPrim _ | TPrimSub _ _ | TNewType _ _ => de_prim W cfg a t
    | TVar n =>
        match c_tvars (d_cls cfg) with
        | None => Raise XExc
        | Some tv => dat <- da_data W a t ;; Ok (EFromGen (index_of n 0 tv) dat (negb (da_iter a)))
        end
    | TLit l => dat <- da_data W a t ;; Ok (ELitDe (literal_func_name P l) dat)
    | _ => Raise (XSerde MUnsupported)
    end.

  Definition de_gen (cfg : decfg) (a : dearg) (c : string) (args : list pytype) : res expr :=
    let a' := with_targs a (map (targ_str P) args) in
    e <- match find_de P (d_class_de cfg) (TClass c), da_deser a with
         | Some n, None => dat <- da_data W a' (TClass c) ;; Ok (EClsDe n (TClass c) dat)
         | _, _ => de_class W cfg a' c
         end ;;
    e <- de_default P W a' (TClass c) e ;;
    de_default P W a' (TClass c) e.

  Definition de_rest (cfg : decfg) (a : dearg) (t : pytype) : res expr :=
    match t with
    | TGen c args => de_gen cfg a c args
    | _ => e <- de_gcore cfg a t ;; de_default P W a t e
    end.

  Lemma de_ty_eq cfg a t : de_ty P W cfg a t =
    match find_de P (d_class_de cfg) t, da_deser a with
    | Some n, None => dat <- da_data W a t ;; de_default P W a t (EClsDe n t dat)
    | _, Some (Some f) => dat <- da_data W a t ;; de_default P W a t (EFn f dat)
    | _, _ => de_rest cfg a t
    end.
  Proof.
    assert (E : forall dat l n, (fix go n l := match l with
                   | [] => Ok []
                   | x :: r =>
                     e <- de_ty P W cfg (inner_arg a (show (EIdx dat n)) (EIdx dat n)) x ;;
                     es <- go (S n) r ;; Ok (e :: es)
                   end) n l = mapMi_from (fun n x => de_ty P W cfg (inner_arg a (show (EIdx dat n)) (EIdx dat n)) x) n l).
    { intros dat l. induction l as [|x l IHl]; intros n; [reflexivity|]. cbn [mapMi_from]. now rewrite IHl. }
    unfold de_rest, de_gcore, de_gen.
    destruct t; unfold de_ty; fold (de_ty P W);
      lazymatch goal with
      | |- context [TTuple ?l] => destruct (find_de _ _ _); [destruct (da_deser a) as [[?|]|]|destruct (da_deser a) as [[?|]|]]; try reflexivity;
          destruct l as [|x l]; try reflexivity; destruct (da_data W a (TTuple (x :: l))); cbn [bind]; try reflexivity;
          cbn [mapMi_from]; now rewrite E
      | |- context [TSet ?k _] => destruct k; reflexivity
      | |- _ => reflexivity
      end.
  Qed.
End DeCore.

(** No element of a container is involved. *)
Fixpoint no_inner (t : pytype) : bool :=
  match t with
  | TUnion l => negb (is_opt t) || forallb no_inner l
  | TList _ _ | TSet _ _ | TDeque _ | TCounter _ | TDict _ _ _ | TTuple _ | TVarTuple _ => false
  | TAlias _ a => no_inner a
  | _ => true
  end.

Section DeOkx.
  Variables (P : program) (W : world).
  Variables (leaf : expr -> Prop) (var_ok : string -> Prop) (calls : Prop).
  Variable nmd : bool.   (* the kind of generated function: for mappings or for sequences *)
  Hypothesis Vv : var_ok "v".
  Hypothesis Vk : var_ok "k".
  Notation ok := (okx leaf var_ok calls).

  (** The ways in which the code for a field uses its input are all allowed. *)
  Definition argok (a : dearg) : Prop :=
    (da_inner a || da_iter a = true -> ok (da_var a)) /\
    (da_inner a || da_iter a = false -> forall k, da_key W a = Ok k ->
       ok (EKey (da_var a) k) /\ ok (EGet (da_var a) k) /\ ok (EIn k (da_var a))) /\
    (da_alias a <> [] -> forall ks,
       (mapM lit (da_name a :: da_alias a) = Ok ks \/ exists k, da_key W a = Ok k /\ mapM lit (k :: da_alias a) = Ok ks) ->
       (forall r, ok (EAliases ks r)) /\ ok (EInAliases (da_var a) ks)) /\
    (da_flatten a = true ->
       (forall tgt ta, ok (EDeFn tgt (da_var a) nmd ta)) /\
       (forall k, ok (EGet (da_var a) k) /\ ok (EIn k (da_var a))) /\ forall ks, ok (EInAliases (da_var a) ks)).

  (** Elements of containers inherit the aliases of the field, which are looked up in the mapping
      (see C22); harmless without aliases or when all such lookups are allowed. *)
  Definition noalias (a : dearg) : Prop := da_alias a = [] \/ forall ks r, ok (EAliases ks r).

  Lemma argok_inner a n v : noalias a -> ok v -> argok (inner_arg a n v).
  Proof.
    intros HA V. unfold argok, inner_arg; cbn. split; [|split; [|split]]; intros; try discriminate; auto.
    - split; [|right; exact V]. intros r. destruct HA as [HA|HA]; [contradiction|apply HA].
  Qed.
  Lemma argok_opt a : argok a -> argok (opt_inner a).
  Proof. intros H. exact H. Qed.
  Lemma argok_targs a l : argok a -> argok (with_targs a l).
  Proof. intros H. exact H. Qed.

  Lemma data_okx a t e : argok a -> da_data W a t = Ok e -> ok e.
  Proof.
    intros (A1 & A2 & _) E. unfold da_data in E. destruct (da_inner a) eqn:I; [injection E as <-; auto|].
    destruct (da_iter a) eqn:J; [injection E as <-; cbn [okx]; right; auto|].
    inv_bind E. injection E as <-. destruct (A2 eq_refl _ Hb) as (K & G & _). destruct (has_none_arg t); auto.
  Qed.

  Lemma prim_data_okx a t e : argok a -> prim_data W a t = Ok e -> ok e.
  Proof.
    intros H E. unfold prim_data in E. destruct (da_alias a) eqn:L; [eapply data_okx; eauto|].
    inv_bind E. injection E as <-. destruct H as (_ & _ & A3 & _).
    apply (A3 ltac:(congruence) a0). left. unfold alias_lits in Hb. exact Hb.
  Qed.

  Lemma and_all_okx l e : Forall ok l -> and_all l = Ok e -> ok e.
  Proof.
    intros H; revert e; induction H as [|x l Hx Hl IH]; intros e E; [discriminate|].
    destruct l; cbn [and_all] in E; [injection E as <-; auto|].
    inv_bind E. injection E as <-. cbn [okx]; right; auto.
  Qed.

  Lemma default_okx a t e e' : argok a -> ok e -> (da_default a = true -> da_inner a = false) ->
    de_default P W a t e = Ok e' -> ok e'.
  Proof.
    intros (A1 & A2 & A3 & A4) He HI E. unfold de_default in E. destruct (da_default a && negb (da_iter a)) eqn:D; [|injection E as <-; auto].
    apply andb_prop in D as [D1 D2]. apply negb_true_iff in D2. specialize (HI D1). rewrite HI, D2 in *.
    inv_bind E. injection E as <-. cbn [okx]; right; split; [|split; auto].
    destruct (da_flatten a) eqn:FL.
    - destruct t; try discriminate. destruct (get_class P c) as [d|]; [|discriminate]. inv_bind Hb.
      eapply and_all_okx; [|exact Hb]. destruct (A4 eq_refl) as (_ & B & C).
      apply mapM_Ok in Hb0. clear Hb. induction Hb0 as [|f x fs xs Hx Hxs IH]; constructor; auto.
      destruct (f_alias f); inv_bind Hx; injection Hx as <-; [apply B|apply C].
    - destruct (da_alias a) eqn:L.
      + inv_bind Hb. injection Hb as <-. now apply A2.
      + inv_bind Hb. injection Hb as <-. refine (proj2 (A3 _ a1 _)); [congruence|]. left. unfold alias_lits in Hb0. now rewrite L in Hb0.
  Qed.

  Lemma de_class_okx cfg a c e : d_named cfg = nmd -> argok a -> de_class W cfg a c = Ok e -> ok e.
  Proof.
    intros NM H E. unfold de_class in E. rewrite NM in E. inv_bind E. injection E as <-. destruct (da_flatten a) eqn:FL.
    - injection Hb as <-. destruct H as (A1 & _ & _ & A4). destruct (da_iter a) eqn:J.
      + cbn [okx]; right; right. apply A1, orb_true_r.
      + now apply A4.
    - cbn [okx]; right. eapply data_okx; eauto.
  Qed.

  Lemma no_inner_opt x l : is_opt (TUnion (x :: l)) = true -> no_inner (TUnion (x :: l)) = true -> no_inner x = true.
  Proof. intros O H. cbn [no_inner] in H. rewrite O in H. cbn [negb orb forallb] in H. now apply andb_prop in H. Qed.

  Definition goodt (r : dearg -> res expr) (t : pytype) : Prop := forall a e, argok a -> (noalias a \/ no_inner t = true) ->
    (da_default a = true -> da_inner a = false) -> r a = Ok e -> ok e.

  Lemma de_ty_step cfg t : goodt (fun a => de_rest P W cfg a t) t -> goodt (fun a => de_ty P W cfg a t) t.
  Proof.
    intros H a e HA AL HI HE. rewrite de_ty_eq in HE.
    destruct (find_de P (d_class_de cfg) _) eqn:F; [destruct (da_deser a) as [[?|]|] eqn:DS|destruct (da_deser a) as [[?|]|] eqn:DS];
      try (eapply H; eassumption);
      (inv_bind HE; eapply default_okx in HE; eauto; cbn [okx]; right; eapply data_okx; eauto).
  Qed.

  Lemma de_prim_okx cfg a t e : argok a -> de_prim W cfg a t = Ok e -> ok e.
  Proof.
    intros HA E. unfold de_prim in E. inv_bind E. apply prim_data_okx in Hb; auto.
    assert (G : ok (if d_suppress cfg && negb (is_prim_sub t) then a0 else ECoerce (d_cname cfg) (da_name a) t a0))
      by (destruct (_ && _); auto; cbn [okx]; auto).
    destruct (is_float_class t); injection E as <-; auto. cbn [okx]; right; split; [right; exact I|split; auto].
  Qed.

  Lemma de_gen_okx cfg a c l e : d_named cfg = nmd -> argok a -> (da_default a = true -> da_inner a = false) -> de_gen P W cfg a c l = Ok e -> ok e.
  Proof.
    intros NM HA HI E. unfold de_gen in E. inv_bind E. inv_bind E. set (a' := with_targs a _) in *.
    assert (HA' : argok a') by exact HA. assert (HI' : da_default a' = true -> da_inner a' = false) by exact HI.
    eapply default_okx in E; eauto. clear E. eapply default_okx in Hb0; eauto. clear Hb0.
    destruct (find_de _ _ _); [destruct (da_deser a)|]; try (eapply de_class_okx; eassumption).
    inv_bind Hb. injection Hb as <-. cbn [okx]; right. eapply data_okx; eauto.
  Qed.

  Lemma opt_exists_okx a t x e : argok a ->
    (if da_iter a || da_inner a then dat <- da_data W a t ;; Ok (ENotNone dat)
     else if da_flatten a then
       match x with
       | TClass c =>
         match get_class P c with
         | None => Raise XType
         | Some d =>
           es <- mapM (fun f => k <- lit (f_name f) ;; Ok (ENotNone (EGet (da_var a) k))) (c_fields d) ;;
           and_all es
         end
       | _ => Raise XType
       end
     else
       k <- da_key W a ;;
       match da_alias a with
       | [] => Ok (ENotNone (EGet (da_var a) k))
       | al => ks <- mapM lit (k :: al) ;; Ok (ENotNone (EAliases ks false))
       end) = Ok e -> ok e.
  Proof.
    intros HA E. destruct (da_iter a || da_inner a) eqn:II.
    - inv_bind E. injection E as <-. cbn [okx]; right. eapply data_okx; eauto.
    - assert (II' : da_inner a || da_iter a = false) by (rewrite orb_comm; exact II).
      destruct HA as (A1 & A2 & A3 & A4). destruct (da_flatten a) eqn:FL.
      + destruct x; try discriminate. destruct (get_class P c) as [d|]; [|discriminate]. inv_bind E.
        eapply and_all_okx; [|exact E]. apply mapM_Ok in Hb. clear E. induction Hb as [|f y fs ys Hf Hfs IH]; constructor; auto.
        inv_bind Hf. injection Hf as <-. cbn [okx]; right. now apply A4.
      + inv_bind E. destruct (A2 II' _ Hb) as (K1 & K2 & K3). destruct (da_alias a) eqn:L.
        * injection E as <-. cbn [okx]; right. exact K2.
        * inv_bind E. injection E as <-. cbn [okx]; right. refine (proj1 (A3 _ _ _) false); [congruence|right; eauto].
  Qed.

  Lemma de_ty_okx cfg t : d_named cfg = nmd -> goodt (fun a => de_ty P W cfg a t) t.
  Proof.
    intros NM.
    induction t using pytype_ind'; apply de_ty_step; intros a ex HA AL HI HE;
      unfold de_rest, de_gcore in HE; try discriminate HE;
      try (eapply de_gen_okx; eassumption);
      (inv_bind HE; eapply default_okx in HE; [exact HE|assumption| |assumption]; clear HE);
      try (eapply de_prim_okx; eassumption);
      try (eapply de_class_okx; eassumption);
      try (destruct AL as [AL|AL]; [|discriminate AL]);
      try (match goal with IH : goodt _ ?t, H : context [de_ty P W cfg _ ?t] |- _ =>
         assert (IHi : forall n v e, ok v -> de_ty P W cfg (inner_arg a n v) t = Ok e -> ok e) by
         (intros n9 v9 e9 V9 E9; apply (IH (inner_arg a n9 v9) e9); [now apply argok_inner|now left|discriminate|assumption]) end).
    all: try (match goal with H : context [TBare ?b] |- _ => destruct b end).
    all: try (match goal with H : context [match ?k with DkDict => _ | _ => _ end] |- _ => destruct k end).
    all: try (match goal with H : context [match ?k with SkSet => _ | _ => _ end] |- _ => destruct k end).
    all: try discriminate.
    all: repeat match goal with H : bind _ _ = Ok _ |- _ => inv_bind H end;
        repeat match goal with H : Ok _ = Ok _ |- _ => injection H as <- end;
        repeat match goal with H : da_data _ _ _ = Ok _ |- _ => eapply data_okx in H; [|assumption] end;
        repeat match goal with H : prim_data _ _ _ = Ok _ |- _ => eapply prim_data_okx in H; [|assumption] end;
        try (cbn [okx]; auto 15; fail).
    all: try (match goal with IHi : forall n v e, _ -> _ = Ok e -> _, E : de_ty _ _ _ (inner_arg _ _ _) _ = Ok _ |- _ =>
           apply IHi in E; [|cbn [okx]; auto] end; cbn [okx]; auto 10; fail).
    2-5: assert (G2 : ok a2) by (apply (IHt2 (inner_arg a "v" (EVar "v")) a2); [apply argok_inner; auto; cbn [okx]; auto|now left|discriminate|assumption]);
      assert (G : ok a1) by (destruct (is_num_key t1); [injection Hb0 as <-; cbn [okx]; auto|];
        apply (IHt1 (inner_arg a "k" (EVar "k")) a1); [apply argok_inner; auto; cbn [okx]; auto|now left|discriminate|assumption]);
      cbn [okx]; auto 10.
    - destruct (is_opt (TUnion l)) eqn:O.
      + destruct l as [|x l]; [discriminate|]. inv_bind Hb. inv_bind Hb. injection Hb as <-.
        inversion H as [|? ? Hx ?]; subst.
        assert (G2 : ok a2).
        { apply (Hx (opt_inner a) a2); auto; [|discriminate]. destruct AL as [AL|AL]; [now left|right]. eapply no_inner_opt; eauto. }
        assert (G1 : ok a1) by (eapply opt_exists_okx; eassumption).
        cbn [okx]; right; split; auto.
      + inv_bind Hb. injection Hb as <-. cbn [okx]; right. eapply data_okx; eauto.
    - destruct l as [|x l]; [discriminate|]. inv_bind Hb. inv_bind Hb. injection Hb as <-. cbn [okx]; right. apply okx_all.
      eapply data_okx in Hb0; [|assumption].
      revert H a2 Hb1. generalize 0. generalize (x :: l) as r. induction r as [|t r IH]; intros m H es E; cbn [mapMi_from] in E.
      + injection E as <-. constructor.
      + inv_bind E. inv_bind E. injection E as <-. inversion H as [|? ? Ht Hr]; subst. constructor; [|eapply IH; eassumption].
        eapply Ht; [| | |eassumption]; [apply argok_inner; auto; cbn [okx]; auto|now left|discriminate].
    - destruct (c_tvars (d_cls cfg)); [|discriminate]. inv_bind Hb. injection Hb as <-. cbn [okx]; right. eapply data_okx; eauto.
    - cbn [no_inner] in AL. apply (IHt a); auto.
  Qed.

  Lemma de_render_okx cfg a t e : d_named cfg = nmd -> argok a -> (noalias a \/ no_inner t = true) -> da_inner a = false ->
    de_render P W cfg a t = Ok e -> ok e.
  Proof.
    intros NM HA AL HI E. unfold de_render in E.
    assert (G : de_ty P W cfg a t = Ok e -> ok e) by (intros; eapply de_ty_okx; eauto).
    destruct (d_legacy cfg); [|auto]. destruct (da_deser a) eqn:DS; [auto|]. destruct (find_de _ _ _); [auto|].
    set (cfg' := {| d_named := _ |}) in *.
    assert (K : exists t' a', argok a' /\ (noalias a' \/ no_inner t' = true) /\ da_inner a' = false /\
      (e0 <- de_ty P W cfg' a' t' ;; dat <- da_data_or W a' t' ;; Ok (ELegacyDe t' dat e0)) = Ok e).
    { destruct t; match type of E with bind (de_ty _ _ _ ?a' ?t') _ = _ => exists t', a' end;
        (split; [exact HA|split; [|split; [exact HI|exact E]]]); try exact AL; right; reflexivity. }
    destruct K as (t' & a' & HA' & AL' & HI' & E'). clear E G. inv_bind E'. inv_bind E'. injection E' as <-.
    cbn [okx]; right; split.
    - unfold da_data_or in Hb0. destruct (da_iter a') eqn:J; [eapply data_okx; eauto|].
      inv_bind Hb0. injection Hb0 as <-. destruct HA' as (_ & A2 & _). rewrite HI', J in A2. now apply A2.
    - apply (de_ty_okx cfg' t' NM a' a0); auto.
  Qed.
End DeOkx.
