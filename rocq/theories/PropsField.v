(** Single values: literals, enums, coercion, number hooks, aliases; and the exceptions of constructors. *)
From Coq Require Import String List ZArith Bool Ascii Lia.
From Verif Require Import Base PyVal PyType Program Compat Syntax SeRender DeRender Eval Formats Facts Mono Spec Cover Walk SeRT DeRT Transport Depend PropsSe PropsDe.
Import ListNotations.
Open Scope string_scope.
Open Scope list_scope.

Section Field.
  Variables (P : program) (W : world) (K : list (tagging * pytype)).
  Notation run := (run P W K).

  (** * Fields that hold a single value *)

  (** Types whose data is looked up under the aliases too *)
  Definition scalar_type (t : pytype) : bool :=
    match t with TPrim _ | TPrimSub _ _ | TNewType _ _ | TEnum _ => true | _ => false end.
  Definition leaf_type (f : fielddef) : Prop :=
    scalar_type (f_type f) = true \/ (exists l, f_type f = TLit l) /\ f_alias f = [].

  (** A field read from a mapping without custom deserializers, whose Python name is its key if it has aliases *)
  Definition leaf_field (d : classdef) (f : fielddef) : Prop :=
    In f (c_fields d) /\ read f = true /\ f_flatten f = false /\ plain_de P d f /\ named_plainly W d f /\ leaf_type f.

  (** The class that a primitive type, NewType or subclass of a primitive denotes in generated code *)
  Definition ctor_class (t : pytype) : pytype := match t with TNewType _ p => TPrim p | _ => t end.

  (** What the field makes of its datum [x] *)
  Definition leaf (d : classdef) (dn : option numhook) (f : fielddef) (x : pyval) : res pyval :=
    match f_type f with
    | TLit l => if existsb (fun y => eqv P (lit_val y) x) l then Ok x else Raise (XSerde MLiteral)
    | TEnum c => deserialize_enum P W c x
    | t =>
      match is_float_class t, dn with
      | true, Some h => h x
      | _, _ =>
        match c_check d, t with
        | TcCoerce, _ | _, TPrimSub _ _ => coerce_object P W (c_name d) (f_name f) (ctor_class t) x
        | _, _ => Ok x
        end
      end
    end.

  (** The names generated code uses for the type of the field denote it. *)
  Definition leaf_scope (d : classdef) (f : fielddef) : Prop :=
    match f_type f with
    | TLit l => literals_ok P d /\ forallb lit_arg_ok l = true
    | TEnum _ | TPrimSub _ _ => names_ok P d
    | _ => True
    end.

  Lemma data_leaf d f a m kvs x call cx : named_plainly W d f -> f_alias f = [] -> first_key P kvs (key_names W d f) = Some x ->
    da_data W (fieldarg d f data_var) (f_type f) = Ok a -> eval P W call cx [("data", VMap m kvs)] a = Ok x.
  Proof.
    intros NP AL FK H. unfold da_data in H. cbn [fieldarg field_arg da_inner da_iter] in H. inv_bind H. injection H as <-. rename a0 into k.
    unfold key_names in FK. rewrite (key_wire _ _ _ _ _ Hb), AL in FK. cbn [first_key] in FK.
    cbn [field_arg da_var]. destruct (skey P kvs k) as [y|] eqn:SK; [|discriminate]. injection FK as ->.
    destruct (has_none_arg (f_type f)); [rewrite eval_get, SK; reflexivity|]. rewrite eval_key. now apply getitem_map.
  Qed.

  Lemma prim_leaf d f a m kvs x call cx : named_plainly W d f -> first_key P kvs (key_names W d f) = Some x ->
    prim_data W (fieldarg d f data_var) (f_type f) = Ok a -> eval P W call cx [("data", VMap m kvs)] a = Ok x.
  Proof.
    intros NP FK H. unfold prim_data in H. cbn [fieldarg field_arg da_alias] in H. destruct (f_alias f) as [|al als] eqn:AL.
    - eapply data_leaf; eauto.
    - inv_bind H. injection H as <-. unfold alias_lits in Hb. change (da_alias (fieldarg d f data_var)) with (f_alias f) in Hb. cbn [field_arg da_alias] in Hb.
      rewrite AL in Hb. apply lits_same in Hb. subst a0. destruct NP as [NP|NP]; [congruence|]. unfold key_names in FK. rewrite NP, AL in FK.
      cbn [eval slookup]. cbn [of_option bind]. change (String.eqb "data" "data") with true. cbn [of_option bind]. rewrite get_aliases_map.
      match goal with |- context [first_key P kvs ?l] => replace l with (f_name f :: al :: als) by reflexivity end. now rewrite FK.
  Qed.

  Lemma default_leaf d f e e' m kvs x call cx : named_plainly W d f -> f_flatten f = false -> first_key P kvs (key_names W d f) = Some x ->
    de_default P W (fieldarg d f data_var) (f_type f) e = Ok e' ->
    eval P W call cx [("data", VMap m kvs)] e' = eval P W call cx [("data", VMap m kvs)] e.
  Proof.
    intros NP FL FK H. destruct (f_default f) as [df|] eqn:DF.
    - assert (DD : da_default (fieldarg d f data_var) = true) by (cbn; now rewrite DF).
      destruct (default_inv P W (fieldarg d f data_var) _ _ _ eq_refl FL DD H) as (y & Y & ->).
      assert (EX := eval_exists P W d f y call cx m kvs NP Y). rewrite FK in EX. cbn [eval] in EX |- *. rewrite EX. reflexivity.
    - unfold de_default in H. cbn [fieldarg field_arg da_default] in H. rewrite DF in H. cbn [has_some andb] in H. congruence.
  Qed.

  (** Also for the type inside the Optional of a field [g] *)
  Lemma leaf_eval_in d g f e m kvs x n t ro dn : In g (c_fields d) -> read g = true -> sub_ty (f_type f) (f_type g) -> (scalar_type (f_type f) = true \/ f = g) ->
    f_flatten f = false -> plain_de P d f -> named_plainly W d f -> leaf_type f ->
    leaf_scope d f -> first_key P kvs (key_names W d f) = Some x ->
    de_render P W (de_cfg d true) (fieldarg d f data_var) (f_type f) = Ok e ->
    eval P W (run n) (top_ctx P d t ro dn) [("data", VMap m kvs)] e = leaf d dn f x.
  Proof.
    intros Hg R SUB GF FL PD NP LT SC FK H. rewrite plain_de_rest in H by exact PD.
    assert (SK : f_skip g = false) by (unfold read in R; destruct (f_init g), (f_skip g); try discriminate R; reflexivity).
    assert (ND : forall u, needed u = true -> f_type f = u -> names_ok P d -> resolve P (de_globals P d) u = Ok u).
    { intros u NU E NO. apply de_lookup; auto. eapply iter_types_field; eauto. now rewrite <- E. }
    assert (G : exists e0, de_gcore P W (de_cfg d true) (fieldarg d f data_var) (f_type f) = Ok e0 /\
                de_default P W (fieldarg d f data_var) (f_type f) e0 = Ok e).
    { unfold de_rest in H. destruct LT as [LT|[[l LT] _]]; [destruct (f_type f); try discriminate LT|rewrite LT in *]; inv_bind H; eauto. }
    destruct G as (e0 & G1 & G2). rewrite (default_leaf d f e0 e m kvs x _ _ NP FL FK G2).
    assert (PR : forall tt, f_type f = tt -> scalar_type tt = true -> (forall c, tt <> TEnum c) -> de_prim W (de_cfg d true) (fieldarg d f data_var) tt = Ok e0 ->
      eval P W (run n) (top_ctx P d t ro dn) [("data", VMap m kvs)] e0 =
      match is_float_class tt, dn with
      | true, Some h => h x
      | _, _ =>
        match c_check d, tt with
        | TcCoerce, _ | _, TPrimSub _ _ => coerce_object P W (c_name d) (f_name f) (ctor_class tt) x
        | _, _ => Ok x
        end
      end).
    { intros tt ET ST NE HP. unfold de_prim in HP. inv_bind HP. rename a into dat. rewrite <- ET in Hb.
      assert (E : eval P W (run n) (top_ctx P d t ro dn) [("data", VMap m kvs)] dat = Ok x) by (eapply prim_leaf; eauto).
      assert (RS : resolve P (x_g (top_ctx P d t ro dn)) tt = Ok (ctor_class tt)).
      { unfold leaf_scope in SC. rewrite ET in SC. destruct tt; try discriminate ST; try reflexivity; [apply ND; auto|destruct (NE c eq_refl)]. }
      assert (CO : eval P W (run n) (top_ctx P d t ro dn) [("data", VMap m kvs)] (ECoerce (c_name d) (f_name f) tt dat) = coerce_object P W (c_name d) (f_name f) (ctor_class tt) x).
      { cbn [eval]. rewrite RS. cbn [bind]. rewrite E. reflexivity. }
      set (q := if d_suppress (de_cfg d true) && negb (is_prim_sub tt) then dat else ECoerce (d_cname (de_cfg d true)) (da_name (fieldarg d f data_var)) tt dat) in HP.
      assert (Q : eval P W (run n) (top_ctx P d t ro dn) [("data", VMap m kvs)] q =
        match c_check d, tt with
        | TcCoerce, _ | _, TPrimSub _ _ => coerce_object P W (c_name d) (f_name f) (ctor_class tt) x
        | _, _ => Ok x
        end).
      { unfold q. cbn [de_cfg d_suppress d_cname]. change (da_name (fieldarg d f data_var)) with (f_name f).
        destruct (c_check d); destruct tt; try discriminate ST; cbn [is_prim_sub negb andb]; first [exact E|exact CO]. }
      destruct (is_float_class tt); injection HP as <-; [|destruct dn; exact Q].
      cbn [eval]. change (x_dn (top_ctx P d t ro dn)) with dn. destruct dn as [h|]; cbn [has_some bind]; rewrite truthy_bool; [|exact Q].
      rewrite E. reflexivity. }
    unfold leaf. destruct LT as [LT|[[l LT] AL]].
    - destruct (f_type f) as [p|nm p|nm p| | | | | | | | | | | |c| | | | | | | | |] eqn:ET; try discriminate LT.
      + now apply PR.
      + now apply PR.
      + now apply PR.
      + unfold de_gcore in G1. inv_bind G1. injection G1 as <-. rewrite <- ET in Hb.
        assert (E : eval P W (run n) (top_ctx P d t ro dn) [("data", VMap m kvs)] a = Ok x) by (eapply prim_leaf; eauto).
        cbn [eval]. unfold leaf_scope in SC. rewrite ET in SC. change (x_g (top_ctx P d t ro dn)) with (de_globals P d).
        rewrite (ND (TEnum c) eq_refl eq_refl SC). cbn [bind]. rewrite E. reflexivity.
    - rewrite LT in *. unfold de_gcore in G1. inv_bind G1. injection G1 as <-. rewrite <- LT in Hb.
      assert (E : eval P W (run n) (top_ctx P d t ro dn) [("data", VMap m kvs)] a = Ok x) by (eapply data_leaf; eauto).
      unfold leaf_scope in SC. rewrite LT in SC. destruct SC as [LO LA]. cbn [eval].
      rewrite (literal_args_ok P (top_ctx P d t ro dn) l LO).
      + rewrite (lit_renderable_ok l LA). cbn [bind]. rewrite E. reflexivity.
      + change (x_cls (top_ctx P d t ro dn)) with d. destruct GF as [GF|GF]; [discriminate GF|]. subst g. eapply iter_literals_field; [exact Hg|exact SK|rewrite LT; constructor|].
        rewrite LT. intros a0 n0 S. apply sub_ty_inv in S. destruct S as [S|[]]. discriminate S.
  Qed.

  Lemma leaf_eval d f e m kvs x n t ro dn : leaf_field d f -> leaf_scope d f -> first_key P kvs (key_names W d f) = Some x ->
    de_render P W (de_cfg d true) (fieldarg d f data_var) (f_type f) = Ok e ->
    eval P W (run n) (top_ctx P d t ro dn) [("data", VMap m kvs)] e = leaf d dn f x.
  Proof.
    intros (Hf & R & FL & PD & NP & LT). apply (leaf_eval_in d f f); auto. constructor.
  Qed.

  Lemma field_renders d f known : c_transparent d = false -> In f (c_fields d) -> read f = true -> f_flatten f = false -> renders P W d ->
    known_fields P W (class_fuel P) d = Ok known ->
    exists e, de_render P W (de_cfg d true) (fieldarg d f data_var) (f_type f) = Ok e /\
      field_stmt P W d known (direct_flat d) f = Ok (DsField (f_name f) None e (if has_some (f_default f) then None else wire_name W d f)).
  Proof.
    intros T Hf R FL RD KN. destruct (renders_inv P W d T RD) as (known' & ss & KN' & F & _). rewrite KN in KN'. injection KN' as <-.
    assert (HF : exists s, field_stmt P W d known (direct_flat d) f = Ok s).
    { assert (I : In f (filter read (c_fields d))) by now apply filter_In. destruct (Forall2_in_l _ _ _ _ F I) as (s & _ & S). eauto. }
    destruct HF as [s S]. pose proof S as S'. unfold field_stmt, is_flat_dict_field, flat_child in S'. rewrite FL in S'. cbn [andb bind fst snd] in S'.
    inv_bind S'. exists a. split; [exact Hb|]. rewrite S. destruct (has_some (f_default f)); [congruence|]. inv_bind S'. apply key_wire in Hb0. rewrite Hb0. congruence.
  Qed.

  (** The object that from_dict returns has in the field what [leaf] gives. *)
  Theorem leaf_result n tg t d m kvs ro dn o f x :
    targets P t d -> dictlike d -> leaf_field d f -> leaf_scope d f -> first_key P kvs (key_names W d f) = Some x ->
    from_dict P W K n (tg, t) (VMap m kvs) ro dn = Ok o ->
    exists attrs v, c_post d (VObj (c_id d) attrs) = Ok o /\ slookup (f_name f) attrs = Some v /\ leaf d dn f x = Ok v.
  Proof.
    intros HT HD LF SC FK H. pose proof LF as (Hf & R & FL & _).
    destruct (from_dict_object P W K _ _ _ _ _ _ _ _ HT HD (map_not_inst _ _ _ _ _ HT) H) as (n' & known & attrs & _ & _ & A & _ & B & _).
    destruct (B f Hf R) as (v & V1 & V2 & _). exists attrs, v. split; [exact A|]. split; [exact V1|].
    apply takes_plain in V2; [|exact FL]. unfold de_value in V2. inv_bind V2.
    now rewrite (leaf_eval d f a m kvs x n' t ro dn LF SC FK Hb) in V2.
  Qed.

  Theorem leaf_never n tg t d m kvs ro dn o f x e :
    targets P t d -> dictlike d -> leaf_field d f -> leaf_scope d f -> first_key P kvs (key_names W d f) = Some x ->
    leaf d dn f x = Raise e -> from_dict P W K n (tg, t) (VMap m kvs) ro dn <> Ok o.
  Proof.
    intros HT HD LF SC FK L H. destruct (leaf_result _ _ _ _ _ _ _ _ _ _ _ HT HD LF SC FK H) as (attrs & v & _ & _ & V). congruence.
  Qed.

  (** Data of a class: the class can be generated, its keys are known if it forbids unknown ones, and the fields
      before [f] can be read. *)
  Definition reads_until (n : nat) (t : pytype) (d : classdef) (m : mapkind) (kvs : list (pyval * pyval)) (ro : option bool)
    (dn : option numhook) (f : fielddef) : Prop :=
    exists known pre post, renders P W d /\ known_fields P W (class_fuel P) d = Ok known /\ keys_ok P d known kvs /\
      filter read (c_fields d) = pre ++ f :: post /\
      Forall (fun g => exists v, takes P W K n d (top_ctx P d t ro dn) known (VMap m kvs) g v) pre.

  Lemma field_raises n tg t d m kvs ro dn f x :
    targets P t d -> dictlike d -> In f (c_fields d) -> read f = true -> f_flatten f = false -> reads_until n t d m kvs ro dn f ->
    (forall e, de_render P W (de_cfg d true) (fieldarg d f data_var) (f_type f) = Ok e ->
       eval P W (run n) (top_ctx P d t ro dn) [("data", VMap m kvs)] e = Raise x) ->
    from_dict P W K (S (S n)) (tg, t) (VMap m kvs) ro dn =
    Raise match x with
          | XUser e => e
          | XKey => if has_some (f_default f) then XSerde (MWrap XKey)
                    else match wire_name W d f with Some k => XSerde (MWrap (XSerde (MMissing k (c_name d)))) | None => XSerde (MWrap XKey) end
          | _ => XSerde (MWrap x)
          end.
  Proof.
    intros HT (T & ND) Hf R FL (known & pre & post & RD & KN & KO & FS & PRE) EV. unfold from_dict.
    rewrite (from_obj_eq P W K (S n) tg t d _ true ro dn HT (map_not_inst _ _ _ _ _ HT)).
    destruct (field_renders d f known T Hf R FL RD KN) as (e & RE & ST). specialize (EV e RE).
    set (y := match x with
              | XKey => if has_some (f_default f) then XKey else match wire_name W d f with Some k => XSerde (MMissing k (c_name d)) | None => XKey end
              | _ => x end).
    rewrite (run_until P W K n d m kvs ro dn (Some (unalias t)) None None pre f post known _ y T RD KN KO FS PRE ST).
    - cbn [catch]. unfold y. destruct x; try reflexivity. destruct (has_some (f_default f)); [reflexivity|]. now destruct (wire_name W d f).
    - intros ex vals. cbn [run_dstmt bind]. fold (top_ctx P d t ro dn). rewrite EV. unfold y.
      change (x_cls (top_ctx P d t ro dn)) with d. destruct (has_some (f_default f)), (wire_name W d f), x; reflexivity.
  Qed.

  Theorem leaf_rejects n tg t d m kvs ro dn f x e :
    targets P t d -> dictlike d -> leaf_field d f -> leaf_scope d f -> first_key P kvs (key_names W d f) = Some x ->
    leaf d dn f x = Raise e -> e <> XKey -> (forall u, e <> XUser u) -> reads_until n t d m kvs ro dn f ->
    from_dict P W K (S (S n)) (tg, t) (VMap m kvs) ro dn = Raise (XSerde (MWrap e)).
  Proof.
    intros HT HD LF SC FK L NK NU RU. pose proof LF as (Hf & R & FL & _).
    rewrite (field_raises n tg t d m kvs ro dn f e HT HD Hf R FL RU).
    - destruct e; try reflexivity; congruence.
    - intros e0 RE. now rewrite (leaf_eval d f e0 m kvs x n t ro dn LF SC FK RE).
  Qed.

  (** Whatever [leaf] gives is what the field takes. *)
  Theorem leaf_takes n t d m kvs ro dn known f x v :
    c_transparent d = false -> leaf_field d f -> leaf_scope d f -> first_key P kvs (key_names W d f) = Some x ->
    leaf d dn f x = Ok v -> renders P W d -> known_fields P W (class_fuel P) d = Ok known ->
    takes P W K n d (top_ctx P d t ro dn) known (VMap m kvs) f v.
  Proof.
    intros T LF SC FK L RD KN. pose proof LF as (Hf & R & FL & _). destruct (field_renders d f known T Hf R FL RD KN) as (e & RE & ST).
    exists (DsField (f_name f) None e (if has_some (f_default f) then None else wire_name W d f)), (extra_of P d known kvs). split; [exact ST|]. split.
    - intros DF. exists kvs. split; [apply items_map|]. unfold extra_of. now rewrite DF.
    - cbn [run_dstmt bind]. rewrite (leaf_eval d f e m kvs x n t ro dn LF SC FK RE), L. destruct (if has_some (f_default f) then None else wire_name W d f); reflexivity.
  Qed.

  (** * C47: what the constructor returns or raises is what from_dict returns or raises *)

  Lemma construct_post d val : NoDup (map f_name (c_fields d)) ->
    (forall f, In f (c_fields d) -> read f = false -> dflt f = Some (Ok (val f))) ->
    (checked d = true -> forall f, In f (c_fields d) -> read f = true -> bear P W (val f) (f_type f) = true) ->
    construct P W d (map val (fst (pk false (c_fields d)))) (map (fun f => (f_name f, val f)) (snd (pk false (c_fields d)))) =
    c_post d (VObj (c_id d) (map (fun f => (f_name f, val f)) (c_fields d))).
  Proof.
    intros ND HD HB. unfold construct, positional. destruct (pk_prefix (c_fields d)) as [q Hq]. rewrite Hq, bind_pos_prefix.
    set (given := map (fun f => (f_name f, val f)) (fst (pk false (c_fields d))) ++ map (fun f => (f_name f, val f)) (snd (pk false (c_fields d)))).
    assert (GV : forall f, In f (c_fields d) -> slookup (f_name f) given = if read f then Some (val f) else None).
    { intros f Hf. destruct (slookup (f_name f) given) as [v|] eqn:L.
      - apply slookup_In in L. unfold given in L. rewrite <- map_app in L. apply in_map_iff in L as [g [E Hg]]. apply in_app_iff in Hg.
        apply pk_In in Hg as [Hg R]. injection E as E <-. assert (g = f) by (eapply same_field; eauto). subst. now rewrite R.
      - destruct (read f) eqn:R; [|reflexivity]. apply slookup_None in L. exfalso. apply L. unfold given. rewrite <- map_app, map_map.
        apply in_map_iff. exists f. split; [reflexivity|]. apply in_app_iff. now apply pk_In. }
    assert (AO : checked d && negb (args_ok P W d given) = false).
    { destruct (checked d) eqn:CK; [|reflexivity]. cbn [andb]. apply negb_false_iff. apply forallb_forall. intros f Hf. rewrite (GV f Hf).
      destruct (read f) eqn:R; auto. }
    rewrite AO.
    assert (NDA : no_dup_args d (map (fun f => (f_name f, val f)) (fst (pk false (c_fields d)))) (map (fun f => (f_name f, val f)) (snd (pk false (c_fields d)))) = true).
    { apply forallb_forall. intros kv Hkv. apply in_map_iff in Hkv as [g [<- Hg]]. cbn [fst].
      apply andb_true_intro. split.
      - apply negb_true_iff. apply not_true_is_false. intros E. apply existsb_exists in E as [pv [Hpv E]].
        apply in_map_iff in Hpv as [f [<- Hf]]. cbn [fst] in E. apply String.eqb_eq in E. revert E. eapply pk_disjoint; eauto.
      - apply existsb_exists. exists g. assert (Hg' : In g (c_fields d) /\ read g = true) by (apply (pk_In false); now right).
        destruct Hg' as [Hg1 R]. split; [assumption|]. rewrite String.eqb_refl. unfold read in R. now destruct (f_init g). }
    rewrite NDA.
    assert (IF : init_fields d given = Ok (map (fun f => (f_name f, val f)) (c_fields d))).
    { unfold init_fields. rewrite (mapM_all_Ok _ (fun f => [(f_name f, val f)])).
      - cbn [bind]. f_equal. clear. induction (c_fields d); simpl; congruence.
      - intros f Hf. rewrite (GV f Hf). destruct (read f) eqn:R.
        + assert (I : f_init f = true) by (unfold read in R; now destruct (f_init f)). now rewrite I.
        + change (default_value f) with (dflt f). rewrite (HD f Hf R). destruct (f_init f); reflexivity. }
    rewrite IF. reflexivity.
  Qed.

  (** The class can be generated, its keys are known if it forbids unknown ones, every field takes a value from the
      data or its default, and the values pass the type check in strict mode. *)
  Definition reads_all (n : nat) (t : pytype) (d : classdef) (m : mapkind) (kvs : list (pyval * pyval)) (ro : option bool)
    (dn : option numhook) (val : fielddef -> pyval) : Prop :=
    exists known, renders P W d /\ known_fields P W (class_fuel P) d = Ok known /\ keys_ok P d known kvs /\
      (forall f, In f (c_fields d) -> read f = true -> takes P W K n d (top_ctx P d t ro dn) known (VMap m kvs) f (val f)) /\
      (forall f, In f (c_fields d) -> read f = false -> dflt f = Some (Ok (val f))) /\
      (checked d = true -> forall f, In f (c_fields d) -> read f = true -> bear P W (val f) (f_type f) = true).

  Theorem C47_constructor n tg t d m kvs ro dn val :
    targets P t d -> dictlike d -> reads_all n t d m kvs ro dn val ->
    from_dict P W K (S (S n)) (tg, t) (VMap m kvs) ro dn =
    c_post d (VObj (c_id d) (map (fun f => (f_name f, val f)) (c_fields d))).
  Proof.
    intros HT HD (known & RD & KN & KO & TK & DF & BE). unfold from_dict.
    rewrite (from_obj_eq P W K (S n) tg t d _ true ro dn HT (map_not_inst _ _ _ _ _ HT)).
    rewrite (run_all P W K n d m kvs ro dn (Some (unalias t)) None None known val HD RD KN KO TK). unfold construct_user.
    rewrite (construct_post d val (proj2 HD) DF BE). destruct (c_post d _); reflexivity.
  Qed.

  (** The exception of the constructor of an object inside a field escapes too. *)
  Theorem C47_nested n tg t d m kvs ro dn f e :
    targets P t d -> dictlike d -> In f (c_fields d) -> read f = true -> f_flatten f = false -> reads_until n t d m kvs ro dn f ->
    de_value P W K n d (top_ctx P d t ro dn) (VMap m kvs) f = Raise (XUser e) ->
    from_dict P W K (S (S n)) (tg, t) (VMap m kvs) ro dn = Raise e.
  Proof.
    intros HT HD Hf R FL RU V. rewrite (field_raises n tg t d m kvs ro dn f (XUser e) HT HD Hf R FL RU); [reflexivity|].
    intros e0 RE. unfold de_value in V. rewrite RE in V. exact V.
  Qed.

  (** ... for instance of a dataclass *)
  Theorem C47_nested_class n tg t d m kvs ro dn f c dc m' kvs' k val e :
    targets P t d -> dictlike d -> In f (c_fields d) -> read f = true -> f_flatten f = false -> plain_de P d f -> f_alias f = [] ->
    names_ok P d -> f_type f = TClass c -> c <> c_id d -> get_class P c = Some dc -> wire_name W d f = Some k -> skey P kvs k = Some (VMap m' kvs') ->
    reads_until (S n) t d m kvs ro dn f ->
    (forall mg mgtv vta, exists known, renders P W dc /\ known_fields P W (class_fuel P) dc = Ok known /\ keys_ok P dc known kvs' /\
      (forall g, In g (c_fields dc) -> read g = true ->
         takes P W K n dc (ctx_of P dc (Some (flag ro (c_reuse d))) dn mg mgtv vta) known (VMap m' kvs') g (val g)) /\
      (forall g, In g (c_fields dc) -> read g = false -> dflt g = Some (Ok (val g))) /\
      (checked dc = true -> forall g, In g (c_fields dc) -> read g = true -> bear P W (val g) (f_type g) = true)) ->
    dictlike dc -> c_post dc (VObj (c_id dc) (map (fun g => (f_name g, val g)) (c_fields dc))) = Raise e ->
    from_dict P W K (S (S (S n))) (tg, t) (VMap m kvs) ro dn = Raise e.
  Proof.
    intros HT HD Hf R FL PD AL NO TY NC GC WN SK RU IN HDC PO.
    rewrite (field_raises (S n) tg t d m kvs ro dn f (XUser e) HT HD Hf R FL RU); [reflexivity|].
    intros e0 RE. rewrite plain_de_rest in RE by exact PD. unfold de_rest in RE. rewrite TY in RE. inv_bind RE. rename a into e1.
    assert (FK : first_key P kvs (key_names W d f) = Some (VMap m' kvs')) by (unfold key_names; rewrite WN, AL; cbn [first_key]; now rewrite SK).
    rewrite <- TY in RE. rewrite (default_leaf d f e1 e0 m kvs _ _ _ (or_introl AL) FL FK RE). unfold de_gcore, de_class in Hb.
    cbn [fieldarg field_arg da_flatten da_parent da_targs] in Hb. rewrite FL in Hb. inv_bind Hb. rename a into dat. injection Hb as <-.
    rewrite <- TY in Hb0. change (da_data W (fieldarg d f data_var) (f_type f) = Ok dat) in Hb0.
    assert (E : eval P W (run (S n)) (top_ctx P d t ro dn) [("data", VMap m kvs)] dat = Ok (VMap m' kvs')) by (eapply data_leaf; eauto; now left).
    assert (SKF : f_skip f = false) by (unfold read in R; destruct (f_init f), (f_skip f); try discriminate R; reflexivity).
    destruct (String.eqb_spec (c_id d) c) as [Q|_]; [congruence|]. cbn [eval]. change (x_g (top_ctx P d t ro dn)) with (de_globals P d).
    rewrite (de_lookup P d (TClass c) NO eq_refl). 2: { eapply iter_types_field; eauto. rewrite TY. constructor. }
    cbn [bind]. rewrite GC. cbn [of_option bind]. rewrite E. cbn [bind].
    set (mg := x_mg (top_ctx P d t ro dn)). set (mgtv := x_mgtv (top_ctx P d t ro dn)).
    change (x_reuse (top_ctx P d t ro dn)) with (flag ro (c_reuse d)). change (x_dn (top_ctx P d t ro dn)) with dn. cbn [de_cfg d_named].
    destruct (IN mg mgtv None) as (known & RD & KN & KO & TK & DF & BE).
    rewrite (run_all P W K n dc m' kvs' (Some (flag ro (c_reuse d))) dn mg mgtv None known val HDC RD KN KO TK). unfold construct_user.
    rewrite (construct_post dc val (proj2 HDC) DF BE), PO. reflexivity.
  Qed.

  (** * C19: literals *)

  (** The datum equals one of the listed values. *)
  Definition listed (l : list litval) (x : pyval) : Prop := exists y, In y l /\ eqv P (lit_val y) x = true.
  Lemma listedP l x : listed l x <-> existsb (fun y => eqv P (lit_val y) x) l = true.
  Proof. unfold listed. rewrite existsb_exists. reflexivity. Qed.

  (** A Literal field of a class, whose values can be written in generated code *)
  Definition literal_field (d : classdef) (f : fielddef) (l : list litval) : Prop :=
    In f (c_fields d) /\ read f = true /\ f_flatten f = false /\ plain_de P d f /\ f_alias f = [] /\ f_type f = TLit l /\
    literals_ok P d /\ forallb lit_arg_ok l = true.
  Lemma literal_leaf d f l : literal_field d f l -> leaf_field d f /\ leaf_scope d f.
  Proof.
    intros (A & B & C & D & E & F & G & H). split.
    - split; [exact A|]. split; [exact B|]. split; [exact C|]. split; [exact D|]. split; [now left|]. right. split; [now exists l|exact E].
    - unfold leaf_scope. rewrite F. now split.
  Qed.
  Lemma wired d f k x kvs : f_alias f = [] -> wire_name W d f = Some k -> skey P kvs k = Some x -> first_key P kvs (key_names W d f) = Some x.
  Proof. intros A B C. unfold key_names. rewrite B, A. cbn [first_key]. now rewrite C. Qed.

  Theorem C19_accepts n tg t d m kvs ro dn o f l k x :
    targets P t d -> dictlike d -> literal_field d f l -> wire_name W d f = Some k -> skey P kvs k = Some x ->
    from_dict P W K n (tg, t) (VMap m kvs) ro dn = Ok o ->
    listed l x /\ exists attrs, c_post d (VObj (c_id d) attrs) = Ok o /\ slookup (f_name f) attrs = Some x.
  Proof.
    intros HT HD LF WN SK H. destruct (literal_leaf d f l LF) as [L1 L2]. pose proof LF as (_ & _ & _ & _ & AL & TY & _).
    destruct (leaf_result _ _ _ _ _ _ _ _ _ _ _ HT HD L1 L2 (wired d f k x kvs AL WN SK) H) as (attrs & v & A & B & C).
    unfold leaf in C. rewrite TY in C. destruct (existsb _ l) eqn:E; [|discriminate]. injection C as <-.
    split; [now apply listedP|]. now exists attrs.
  Qed.

  Theorem C19_rejects n tg t d m kvs ro dn f l k x :
    targets P t d -> dictlike d -> literal_field d f l -> wire_name W d f = Some k -> skey P kvs k = Some x ->
    ~ listed l x -> reads_until n t d m kvs ro dn f ->
    from_dict P W K (S (S n)) (tg, t) (VMap m kvs) ro dn = Raise (XSerde (MWrap (XSerde MLiteral))).
  Proof.
    intros HT HD LF WN SK NL RU. destruct (literal_leaf d f l LF) as [L1 L2]. pose proof LF as (_ & _ & _ & _ & AL & TY & _).
    apply (leaf_rejects n tg t d m kvs ro dn f x (XSerde MLiteral) HT HD L1 L2 (wired d f k x kvs AL WN SK)); try discriminate; auto.
    unfold leaf. rewrite TY. destruct (existsb _ l) eqn:E; [|reflexivity]. destruct NL. now apply listedP.
  Qed.

  (** A listed value is accepted: the field takes it. *)
  Theorem C19_takes n t d m kvs ro dn known f l k x :
    c_transparent d = false -> literal_field d f l -> wire_name W d f = Some k -> skey P kvs k = Some x ->
    listed l x -> renders P W d -> known_fields P W (class_fuel P) d = Ok known ->
    takes P W K n d (top_ctx P d t ro dn) known (VMap m kvs) f x.
  Proof.
    intros T LF WN SK L RD KN. destruct (literal_leaf d f l LF) as [L1 L2]. pose proof LF as (_ & _ & _ & _ & AL & TY & _).
    apply (leaf_takes n t d m kvs ro dn known f x x T L1 L2 (wired d f k x kvs AL WN SK)); auto.
    unfold leaf. rewrite TY. apply listedP in L. now rewrite L.
  Qed.

  (** * C26: coercion *)

  (** A field of a primitive type, a subclass of one or a NewType of one, in a class with type_check=coerce; float
      fields are read without a number hook, as from_dict does. *)
  Definition coerce_field (d : classdef) (f : fielddef) (dn : option numhook) : Prop :=
    In f (c_fields d) /\ read f = true /\ f_flatten f = false /\ plain_de P d f /\ named_plainly W d f /\
    c_check d = TcCoerce /\ (dn = None \/ is_float_class (f_type f) = false) /\
    match f_type f with TPrim _ | TNewType _ _ => True | TPrimSub _ _ => names_ok P d | _ => False end.
  Lemma coerce_leaf d f dn : coerce_field d f dn -> leaf_field d f /\ leaf_scope d f /\
    forall x, leaf d dn f x = coerce_object P W (c_name d) (f_name f) (ctor_class (f_type f)) x.
  Proof.
    intros (A & B & C & D & E & F & G & H). split; [|split].
    - split; [exact A|]. split; [exact B|]. split; [exact C|]. split; [exact D|]. split; [exact E|]. left. destruct (f_type f); try contradiction H; reflexivity.
    - unfold leaf_scope. destruct (f_type f); try contradiction H; auto.
    - intros x. unfold leaf. rewrite F. destruct G as [-> | G].
      + destruct (f_type f); try contradiction H; try reflexivity; destruct (is_float_class _); reflexivity.
      + destruct (f_type f); try contradiction H; rewrite G; reflexivity.
  Qed.

  (** The value is what the constructor of the type makes of the datum. *)
  Theorem C26_converts n tg t d m kvs ro dn o f x :
    targets P t d -> dictlike d -> coerce_field d f dn -> first_key P kvs (key_names W d f) = Some x ->
    from_dict P W K n (tg, t) (VMap m kvs) ro dn = Ok o ->
    x <> VNone /\ exists attrs v, c_post d (VObj (c_id d) attrs) = Ok o /\ slookup (f_name f) attrs = Some v /\
      call_ctor P W (ctor_class (f_type f)) x = Ok v.
  Proof.
    intros HT HD CF FK H. destruct (coerce_leaf d f dn CF) as (L1 & L2 & L3).
    destruct (leaf_result _ _ _ _ _ _ _ _ _ _ _ HT HD L1 L2 FK H) as (attrs & v & A & B & C). rewrite L3 in C. unfold coerce_object in C.
    split; [destruct x; discriminate|]. exists attrs, v. split; [exact A|]. split; [exact B|].
    destruct x; try discriminate C; destruct (call_ctor _ _ _ _); cbn [catch] in C; congruence.
  Qed.

  Theorem C26_none n tg t d m kvs ro dn f :
    targets P t d -> dictlike d -> coerce_field d f dn -> first_key P kvs (key_names W d f) = Some VNone ->
    reads_until n t d m kvs ro dn f ->
    from_dict P W K (S (S n)) (tg, t) (VMap m kvs) ro dn = Raise (XSerde (MWrap (XSerde (MCoerceNone (c_name d) (f_name f))))).
  Proof.
    intros HT HD CF FK RU. destruct (coerce_leaf d f dn CF) as (L1 & L2 & L3).
    apply (leaf_rejects n tg t d m kvs ro dn f _ _ HT HD L1 L2 FK); try discriminate; auto. now rewrite L3.
  Qed.

  Theorem C26_error n tg t d m kvs ro dn f x e :
    targets P t d -> dictlike d -> coerce_field d f dn -> first_key P kvs (key_names W d f) = Some x -> x <> VNone ->
    call_ctor P W (ctor_class (f_type f)) x = Raise e -> reads_until n t d m kvs ro dn f ->
    from_dict P W K (S (S n)) (tg, t) (VMap m kvs) ro dn = Raise (XSerde (MWrap (XSerde (MCoerce (c_name d) (f_name f))))).
  Proof.
    intros HT HD CF FK NN CE RU. destruct (coerce_leaf d f dn CF) as (L1 & L2 & L3).
    apply (leaf_rejects n tg t d m kvs ro dn f _ _ HT HD L1 L2 FK); try discriminate; auto. rewrite L3. unfold coerce_object. rewrite CE.
    destruct x; try reflexivity. congruence.
  Qed.

  (** A datum that has the type already is kept. *)
  Theorem C26_same n tg t d m kvs ro dn o f p x :
    targets P t d -> dictlike d -> coerce_field d f dn -> (f_type f = TPrim p \/ exists q, f_type f = TNewType q p) ->
    first_key P kvs (key_names W d f) = Some x -> prim_val p x = true ->
    from_dict P W K n (tg, t) (VMap m kvs) ro dn = Ok o ->
    exists attrs, c_post d (VObj (c_id d) attrs) = Ok o /\ slookup (f_name f) attrs = Some x.
  Proof.
    intros HT HD CF TY FK PV H. destruct (coerce_leaf d f dn CF) as (L1 & L2 & L3).
    destruct (leaf_result _ _ _ _ _ _ _ _ _ _ _ HT HD L1 L2 FK H) as (attrs & v & A & B & C). exists attrs. split; [exact A|]. rewrite B.
    rewrite L3 in C. assert (E : ctor_class (f_type f) = TPrim p) by (destruct TY as [->|[q ->]]; reflexivity). rewrite E in C.
    rewrite (coerce_same P W (c_name d) (f_name f) (TPrim p) p x (or_introl eq_refl) PV) in C. congruence.
  Qed.

  (** A datum that can be converted is accepted: the field takes the result. *)
  Theorem C26_takes n t d m kvs ro dn known f x v :
    c_transparent d = false -> coerce_field d f dn -> first_key P kvs (key_names W d f) = Some x -> x <> VNone ->
    call_ctor P W (ctor_class (f_type f)) x = Ok v -> renders P W d -> known_fields P W (class_fuel P) d = Ok known ->
    takes P W K n d (top_ctx P d t ro dn) known (VMap m kvs) f v.
  Proof.
    intros T CF FK NN CE RD KN. destruct (coerce_leaf d f dn CF) as (L1 & L2 & L3).
    apply (leaf_takes n t d m kvs ro dn known f x v T L1 L2 FK); auto. rewrite L3. unfold coerce_object. rewrite CE. destruct x; try reflexivity. congruence.
  Qed.

  (** * C27: numbers of JSON and YAML documents *)

  Definition float_field (d : classdef) (f : fielddef) : Prop :=
    In f (c_fields d) /\ read f = true /\ f_flatten f = false /\ plain_de P d f /\ named_plainly W d f /\ f_type f = TPrim PFloat.
  Lemma float_leaf d f h : float_field d f -> leaf_field d f /\ leaf_scope d f /\ forall x, leaf d (Some h) f x = h x.
  Proof.
    intros (A & B & C & D & E & F). split; [|split].
    - split; [exact A|]. split; [exact B|]. split; [exact C|]. split; [exact D|]. split; [exact E|]. left. now rewrite F.
    - unfold leaf_scope. now rewrite F.
    - intros x. unfold leaf. now rewrite F.
  Qed.

  (** What a document gives for a number: float(z) for an integer, the number itself for a float; in YAML
      also float(s) for a string. *)
  Inductive json_number : pyval -> pyval -> Prop :=
  | jn_int z r : float_of_Z z = Ok r -> json_number (VInt z) (VFloat r)
  | jn_float r : json_number (VFloat r) (VFloat r).
  Inductive yaml_number : pyval -> pyval -> Prop :=
  | yn_json x v : json_number x v -> yaml_number x v
  | yn_str s r : w_float_of_str W s = Some r -> yaml_number (VStr s) (VFloat r).
  (** Values of documents that are no numbers *)
  Definition no_number (x : pyval) : Prop :=
    match x with VNone | VBool _ | VStr _ | VSeq _ _ | VMap _ _ => True | _ => False end.
  Definition doc_value (x : pyval) : Prop := no_number x \/ (exists z, x = VInt z) \/ exists r, x = VFloat r.

  Lemma json_hook x v : doc_value x -> deserialize_json_numbers P W x = Ok v <-> json_number x v.
  Proof.
    intros D. split.
    - intros H. unfold deserialize_json_numbers, num_float in H. destruct D as [N|[[z ->]|[r ->]]].
      + destruct x; try contradiction N; try discriminate H.
      + cbn in H. inv_bind H. injection H as <-. now constructor.
      + cbn in H. injection H as <-. constructor.
    - intros H. inversion H; subst; [cbn; now rewrite H0|reflexivity].
  Qed.
  Lemma json_hook_no x : no_number x -> deserialize_json_numbers P W x = Raise (XSerde MNumber).
  Proof. intros N. destruct x; try contradiction N; reflexivity. Qed.
  Lemma yaml_hook x v : doc_value x -> deserialize_yaml_numbers P W x = Ok v <-> yaml_number x v.
  Proof.
    intros D. split.
    - intros H. unfold deserialize_yaml_numbers, num_float in H. destruct D as [N|[[z ->]|[r ->]]].
      + destruct x as [ | | | |s| | | | | | | | ]; try contradiction N; try discriminate H.
        cbn in H. destruct (w_float_of_str W s) as [r|] eqn:E; cbn in H; [|discriminate]. injection H as <-. now constructor.
      + cbn in H. inv_bind H. injection H as <-. now repeat constructor.
      + cbn in H. injection H as <-. repeat constructor.
    - intros H. inversion H as [? ? J|? ? E]; subst; [inversion J; subst; [|reflexivity]; cbn; now rewrite H0|]. cbn. now rewrite E.
  Qed.
  Lemma yaml_hook_no x : no_number x -> (forall s r, x = VStr s -> w_float_of_str W s <> Some r) -> deserialize_yaml_numbers P W x = Raise (XSerde MNumber).
  Proof.
    intros N S. destruct x; try contradiction N; try reflexivity. cbn. destruct (w_float_of_str W s) as [r|] eqn:E; [destruct (S s r eq_refl E)|reflexivity].
  Qed.

  Theorem C27_json n J tg t s d m kvs o f x :
    targets P t d -> dictlike d -> float_field d f -> loads J s = Ok (VMap m kvs) -> first_key P kvs (key_names W d f) = Some x -> doc_value x ->
    from_json P W K J n (tg, t) s true = Ok o ->
    exists attrs v, c_post d (VObj (c_id d) attrs) = Ok o /\ slookup (f_name f) attrs = Some v /\ json_number x v.
  Proof.
    intros HT HD FF LD FK DV H. unfold from_json in H. rewrite LD in H. cbn [bind] in H.
    destruct (float_leaf d f (deserialize_json_numbers P W) FF) as (L1 & L2 & L3).
    destruct (leaf_result _ _ _ _ _ _ _ _ _ _ _ HT HD L1 L2 FK H) as (attrs & v & A & B & C). rewrite L3 in C. exists attrs, v.
    split; [exact A|]. split; [exact B|]. now apply json_hook.
  Qed.
  Theorem C27_yaml n J tg t s d m kvs o f x :
    targets P t d -> dictlike d -> float_field d f -> loads J s = Ok (VMap m kvs) -> first_key P kvs (key_names W d f) = Some x -> doc_value x ->
    from_yaml P W K J n (tg, t) s true = Ok o ->
    exists attrs v, c_post d (VObj (c_id d) attrs) = Ok o /\ slookup (f_name f) attrs = Some v /\ yaml_number x v.
  Proof.
    intros HT HD FF LD FK DV H. unfold from_yaml in H. rewrite LD in H. cbn [bind] in H.
    destruct (float_leaf d f (deserialize_yaml_numbers P W) FF) as (L1 & L2 & L3).
    destruct (leaf_result _ _ _ _ _ _ _ _ _ _ _ HT HD L1 L2 FK H) as (attrs & v & A & B & C). rewrite L3 in C. exists attrs, v.
    split; [exact A|]. split; [exact B|]. now apply yaml_hook.
  Qed.

  (** Numbers are accepted: the field takes the converted one. *)
  Theorem C27_json_takes n t d m kvs ro known f x v :
    c_transparent d = false -> float_field d f -> first_key P kvs (key_names W d f) = Some x -> json_number x v ->
    renders P W d -> known_fields P W (class_fuel P) d = Ok known ->
    takes P W K n d (top_ctx P d t ro (Some (deserialize_json_numbers P W))) known (VMap m kvs) f v.
  Proof.
    intros T FF FK JN RD KN. destruct (float_leaf d f (deserialize_json_numbers P W) FF) as (L1 & L2 & L3).
    eapply (leaf_takes n t d m kvs ro _ known f x v T L1 L2 FK); auto. rewrite L3. apply json_hook; auto. right. inversion JN; eauto.
  Qed.
  Theorem C27_yaml_takes n t d m kvs ro known f x v :
    c_transparent d = false -> float_field d f -> first_key P kvs (key_names W d f) = Some x -> yaml_number x v ->
    renders P W d -> known_fields P W (class_fuel P) d = Ok known ->
    takes P W K n d (top_ctx P d t ro (Some (deserialize_yaml_numbers P W))) known (VMap m kvs) f v.
  Proof.
    intros T FF FK JN RD KN. destruct (float_leaf d f (deserialize_yaml_numbers P W) FF) as (L1 & L2 & L3).
    eapply (leaf_takes n t d m kvs ro _ known f x v T L1 L2 FK); auto. rewrite L3. apply yaml_hook; auto.
    inversion JN as [? ? Q|]; subst; [right; inversion Q; eauto|now left].
  Qed.

  (** Anything else is rejected with SerdeError. *)
  Theorem C27_json_rejects n J tg t s d m kvs f x :
    targets P t d -> dictlike d -> float_field d f -> loads J s = Ok (VMap m kvs) -> first_key P kvs (key_names W d f) = Some x -> no_number x ->
    reads_until n t d m kvs (Some false) (Some (deserialize_json_numbers P W)) f ->
    from_json P W K J (S (S n)) (tg, t) s true = Raise (XSerde (MWrap (XSerde MNumber))).
  Proof.
    intros HT HD FF LD FK NN RU. unfold from_json. rewrite LD. cbn [bind].
    destruct (float_leaf d f (deserialize_json_numbers P W) FF) as (L1 & L2 & L3).
    apply (leaf_rejects n tg t d m kvs _ _ f x _ HT HD L1 L2 FK); try discriminate; auto. rewrite L3. now apply json_hook_no.
  Qed.
  Theorem C27_yaml_rejects n J tg t s d m kvs f x :
    targets P t d -> dictlike d -> float_field d f -> loads J s = Ok (VMap m kvs) -> first_key P kvs (key_names W d f) = Some x -> no_number x ->
    (forall q r, x = VStr q -> w_float_of_str W q <> Some r) ->
    reads_until n t d m kvs (Some false) (Some (deserialize_yaml_numbers P W)) f ->
    from_yaml P W K J (S (S n)) (tg, t) s true = Raise (XSerde (MWrap (XSerde MNumber))).
  Proof.
    intros HT HD FF LD FK NN NS RU. unfold from_yaml. rewrite LD. cbn [bind].
    destruct (float_leaf d f (deserialize_yaml_numbers P W) FF) as (L1 & L2 & L3).
    apply (leaf_rejects n tg t d m kvs _ _ f x _ HT HD L1 L2 FK); try discriminate; auto. rewrite L3. now apply yaml_hook_no.
  Qed.

  (** float as class argument *)
  Theorem C27_json_top n J tg s x v : first_de P (TPrim PFloat) = None -> loads J s = Ok x -> doc_value x ->
    (from_json P W K J (S n) (tg, (TPrim PFloat)) s true = Ok v <-> json_number x v) /\
    (no_number x -> from_json P W K J (S n) (tg, (TPrim PFloat)) s true = Raise (XSerde (MWrap (XSerde MNumber)))).
  Proof.
    intros FD LD DV. unfold from_json. rewrite LD. cbn [bind].
    assert (E : from_dict P W K (S n) (tg, (TPrim PFloat)) x (Some false) (Some (deserialize_json_numbers P W)) =
      if type_is x (TPrim PFloat) then Ok x
      else catch (deserialize_json_numbers P W x) (fun e => match e with XUser e => Raise e | _ => Raise (XSerde (MWrap e)) end)).
    { unfold from_dict. cbn [Eval.run step unalias is_union is_opt andb negb]. destruct (type_is x (TPrim PFloat)); [reflexivity|].
      unfold from_obj_body. rewrite FD. reflexivity. }
    assert (NT : no_number x -> type_is x (TPrim PFloat) = false) by (intros N; destruct x as [ | | | | | |[]|[]| | | | | ]; try contradiction N; reflexivity).
    rewrite E. split.
    - rewrite <- (json_hook x v DV). destruct DV as [N|[[z ->]|[r ->]]].
      + rewrite json_hook_no by exact N. rewrite (NT N). cbn; split; discriminate.
      + cbn [type_is]. change (deserialize_json_numbers P W (VInt z)) with (r <- float_of_Z z ;; Ok (VFloat r)).
        unfold float_of_Z. destruct (SpecFloat.binary_normalize 53 1024 z 0 false); cbn [bind catch]; split; intros Q; first [exact Q|discriminate Q].
      + cbn. reflexivity.
    - intros N. rewrite json_hook_no, (NT N) by exact N. reflexivity.
  Qed.

  (** * C20: enums *)

  Definition enum_field (d : classdef) (f : fielddef) (c : string) : Prop :=
    In f (c_fields d) /\ read f = true /\ f_flatten f = false /\ plain_de P d f /\ named_plainly W d f /\ f_type f = TEnum c /\ names_ok P d /\ enum_wf P c.
  Lemma enum_leaf d f c : enum_field d f c -> leaf_field d f /\ leaf_scope d f /\ forall dn x, leaf d dn f x = deserialize_enum P W c x.
  Proof.
    intros (A & B & C & D & E & F & G & H). split; [|split].
    - split; [exact A|]. split; [exact B|]. split; [exact C|]. split; [exact D|]. split; [exact E|]. left. now rewrite F.
    - unfold leaf_scope. now rewrite F.
    - intros dn x. unfold leaf. now rewrite F.
  Qed.

  (** The datum stands for a member: it equals the value of the member, or it is the decimal text of its integer value. *)
  Definition stands_for (c mem : string) (x : pyval) : Prop :=
    exists y, enum_member P c mem = Some y /\
      (eqv P y x = true \/ exists s z, x = VStr s /\ w_int_of_str W s = Some z /\ y = VInt z).
  (** Enums of integers, enums of strings *)
  Definition int_enum (c : string) : Prop := exists e, get_enum P c = Some e /\ forall m y, In (m, y) (e_members e) -> exists z, y = VInt z.
  Definition str_enum (c : string) : Prop := exists e, get_enum P c = Some e /\ forall m y, In (m, y) (e_members e) -> exists s, y = VStr s.
  (** Data that are no enum members themselves and no instances of other classes *)
  Definition plain_datum (x : pyval) : Prop :=
    match x with VNone | VBool _ | VInt _ | VFloat _ | VStr _ | VSeq _ _ | VMap _ _ => True | _ => False end.

  Lemma enum_call_plain c x : enum_wf P c -> plain_datum x ->
    (exists mem, enum_call P c x = Ok (VEnum c mem) /\ exists y, enum_member P c mem = Some y /\ eqv P y x = true) \/
    ((enum_call P c x = Raise XValue \/ get_enum P c <> None /\ enum_call P c x = Raise XType /\ forall mem, enum_member P c mem = None) /\
     forall mem y, enum_member P c mem = Some y -> eqv P y x = false).
  Proof.
    intros (e & G & ND & _ & _) PD. unfold enum_call, enum_member. rewrite G.
    destruct (e_members e) as [|m0 ms] eqn:M.
    - right. split; [right; split; [discriminate|split; [reflexivity|reflexivity]]|]. cbn. discriminate.
    - replace (match x with VEnum c' m1 => String.eqb c' c && match slookup m1 (m0 :: ms) with Some _ => true | None => false end | _ => false end)
        with false by (destruct x; try contradiction PD; reflexivity).
      destruct (find (fun nv => eqv P (snd nv) x) (m0 :: ms)) as [[mem y]|] eqn:F.
      + left. apply find_some in F as [F1 F2]. exists mem. split; [reflexivity|]. exists y. split; [|exact F2]. now apply slookup_NoDup.
      + right. split; [now left|]. intros mem y L. apply slookup_In in L. exact (find_none _ _ F _ L).
  Qed.

  Lemma enum_text c s : int_enum c -> enum_wf P c -> (exists mem, enum_member P c mem <> None) ->
    deserialize_enum P W c (VStr s) = match w_int_of_str W s with Some z => enum_call P c (VInt z) | None => Raise XValue end.
  Proof.
    intros (e & G & AI) EW (mem & NE). unfold deserialize_enum.
    assert (C1 : enum_call P c (VStr s) = Raise XValue).
    { destruct (enum_call_plain c (VStr s) EW I) as [(m1 & _ & y & Y1 & Y2)|[[H|(_ & _ & H)] _]].
      - unfold enum_member in Y1. rewrite G in Y1. apply slookup_In in Y1. destruct (AI _ _ Y1) as [z ->]. discriminate Y2.
      - exact H.
      - now rewrite H in NE. }
    rewrite C1, G. unfold enum_member in NE. rewrite G in NE. destruct (e_members e) as [|[m0 x0] ms]; [now destruct NE|].
    destruct (AI m0 x0 (or_introl eq_refl)) as [z ->]. cbn. destruct (w_int_of_str W s); reflexivity.
  Qed.

  Lemma eqv_int y z : (exists z', y = VInt z') -> eqv P y (VInt z) = true -> y = VInt z.
  Proof. intros [z' ->] H. apply Z.eqb_eq in H. now subst. Qed.

  Lemma enum_reads c x : enum_wf P c -> plain_datum x -> int_enum c \/ str_enum c -> (exists mem, enum_member P c mem <> None) ->
    (exists mem, deserialize_enum P W c x = Ok (VEnum c mem) /\ stands_for c mem x) \/
    (deserialize_enum P W c x = Raise XValue /\ forall mem, ~ stands_for c mem x).
  Proof.
    intros EW PD IS NE.
    assert (TEXT : int_enum c -> forall s, x = VStr s -> (exists mem, deserialize_enum P W c x = Ok (VEnum c mem) /\ stands_for c mem x) \/
      (deserialize_enum P W c x = Raise XValue /\ forall mem, ~ stands_for c mem x)).
    { intros IE s ->. rewrite (enum_text c s IE EW NE). destruct IE as (e & G & AI).
      assert (NS : forall mem y, enum_member P c mem = Some y -> eqv P y (VStr s) = false).
      { intros mem y Y. unfold enum_member in Y. rewrite G in Y. apply slookup_In in Y. destruct (AI _ _ Y) as [z ->]. reflexivity. }
      assert (AI' : forall mem y, enum_member P c mem = Some y -> exists z, y = VInt z).
      { intros mem y Y. unfold enum_member in Y. rewrite G in Y. apply slookup_In in Y. eauto. }
      destruct (w_int_of_str W s) as [z|] eqn:E.
      - destruct (enum_call_plain c (VInt z) EW I) as [(m1 & H & y & Y1 & Y2)|[[H|(_ & _ & H)] NO]].
        + left. exists m1. split; [exact H|]. exists y. split; [exact Y1|]. right. exists s, z. split; [reflexivity|]. split; [exact E|].
          apply eqv_int; eauto.
        + right. split; [exact H|]. intros mem (y & Y1 & [Y2|(s' & z' & S & E' & ->)]); [rewrite (NS _ _ Y1) in Y2; discriminate|].
          injection S as <-. rewrite E in E'. injection E' as <-. specialize (NO _ _ Y1). cbn in NO. now rewrite Z.eqb_refl in NO.
        + destruct NE as [m' NE]. now rewrite H in NE.
      - right. split; [reflexivity|]. intros mem (y & Y1 & [Y2|(s' & z' & S & E' & _)]); [rewrite (NS _ _ Y1) in Y2; discriminate|]. congruence. }
    destruct (enum_call_plain c x EW PD) as [(mem & H & y & Y1 & Y2)|[[H|(_ & _ & H)] NO]].
    - left. exists mem. split; [unfold deserialize_enum; now rewrite H|]. exists y. eauto.
    - assert (R : (exists s, x = VStr s) /\ int_enum c \/ deserialize_enum P W c x = Raise XValue /\ forall s, x = VStr s -> ~ int_enum c).
      { unfold deserialize_enum. rewrite H. destruct NE as [m' NE]. unfold enum_member in NE.
        destruct IS as [(e & G & A)|(e & G & A)]; rewrite G in *; destruct (e_members e) as [|[m0 x0] ms] eqn:M; try (now destruct NE);
          destruct (A m0 x0 (or_introl eq_refl)) as [z ->].
        - destruct x as [ | | | |s| | [] l| | | | | | ]; try contradiction PD; try (right; split; [reflexivity|discriminate]).
          left. split; [eauto|]. exists e. split; [exact G|]. intros m y I. apply (A m y). now rewrite <- M.
        - right. split.
          + destruct x as [ | | | |s| | [] l| | | | | | ]; try contradiction PD; reflexivity.
          + intros s _ (e' & G' & A'). rewrite G in G'. injection G' as <-. rewrite M in A'. destruct (A' m0 (VStr z) (or_introl eq_refl)) as [? ?]. discriminate. }
      destruct R as [[[s S] IE]|[R NI]]; [now apply (TEXT IE s)|]. right. split; [exact R|].
      intros mem (y & Y1 & [Y2|(s & z & S & _ & ->)]); [rewrite (NO _ _ Y1) in Y2; discriminate|].
      apply (NI s S). destruct IS as [IS|(e & G & A)]; [exact IS|].
      unfold enum_member in Y1. rewrite G in Y1. apply slookup_In in Y1. destruct (A _ _ Y1) as [? ?]. discriminate.
    - destruct NE as [m' NE]. now rewrite H in NE.
  Qed.

  (** What a field reads is a member that the datum stands for ... *)
  Theorem C20_reads n tg t d m kvs ro dn o f c x :
    targets P t d -> dictlike d -> enum_field d f c -> int_enum c \/ str_enum c -> (exists mem, enum_member P c mem <> None) ->
    first_key P kvs (key_names W d f) = Some x -> plain_datum x ->
    from_dict P W K n (tg, t) (VMap m kvs) ro dn = Ok o ->
    exists attrs mem, c_post d (VObj (c_id d) attrs) = Ok o /\ slookup (f_name f) attrs = Some (VEnum c mem) /\ stands_for c mem x.
  Proof.
    intros HT HD EF IS NE FK PD H. destruct (enum_leaf d f c EF) as (L1 & L2 & L3). pose proof EF as (_ & _ & _ & _ & _ & _ & _ & EW).
    destruct (leaf_result _ _ _ _ _ _ _ _ _ _ _ HT HD L1 L2 FK H) as (attrs & v & A & B & C). rewrite L3 in C.
    destruct (enum_reads c x EW PD IS NE) as [(mem & R & S)|[R _]]; [|congruence]. exists attrs, mem. rewrite R in C. injection C as <-. eauto.
  Qed.

  (** ... data that stand for a member are accepted ... *)
  Theorem C20_takes n t d m kvs ro dn known f c x mem :
    c_transparent d = false -> enum_field d f c -> int_enum c \/ str_enum c -> first_key P kvs (key_names W d f) = Some x -> plain_datum x ->
    stands_for c mem x -> renders P W d -> known_fields P W (class_fuel P) d = Ok known ->
    exists mem', takes P W K n d (top_ctx P d t ro dn) known (VMap m kvs) f (VEnum c mem') /\ stands_for c mem' x.
  Proof.
    intros T EF IS FK PD SF RD KN. destruct (enum_leaf d f c EF) as (L1 & L2 & L3). pose proof EF as (_ & _ & _ & _ & _ & _ & _ & EW).
    assert (NE : exists mem, enum_member P c mem <> None) by (destruct SF as (y & Y & _); exists mem; congruence).
    destruct (enum_reads c x EW PD IS NE) as [(mem' & R & S)|[_ N]]; [|destruct (N _ SF)]. exists mem'. split; [|exact S].
    apply (leaf_takes n t d m kvs ro dn known f x _ T L1 L2 FK); auto. now rewrite L3.
  Qed.

  (** ... and all others are rejected with SerdeError. *)
  Theorem C20_rejects n tg t d m kvs ro dn f c x :
    targets P t d -> dictlike d -> enum_field d f c -> int_enum c \/ str_enum c -> (exists mem, enum_member P c mem <> None) ->
    first_key P kvs (key_names W d f) = Some x -> plain_datum x -> (forall mem, ~ stands_for c mem x) -> reads_until n t d m kvs ro dn f ->
    from_dict P W K (S (S n)) (tg, t) (VMap m kvs) ro dn = Raise (XSerde (MWrap XValue)).
  Proof.
    intros HT HD EF IS NE FK PD NS RU. destruct (enum_leaf d f c EF) as (L1 & L2 & L3). pose proof EF as (_ & _ & _ & _ & _ & _ & _ & EW).
    apply (leaf_rejects n tg t d m kvs ro dn f x XValue HT HD L1 L2 FK); try discriminate; auto. rewrite L3.
    destruct (enum_reads c x EW PD IS NE) as [(mem & _ & S)|[R _]]; [destruct (NS _ S)|exact R].
  Qed.

  (** The value of a member, of whatever plain type, is read as the member. *)
  Theorem C20_value n tg t d m kvs ro dn o f c mem y :
    targets P t d -> dictlike d -> enum_field d f c -> enum_member P c mem = Some y -> first_key P kvs (key_names W d f) = Some y ->
    from_dict P W K n (tg, t) (VMap m kvs) ro dn = Ok o ->
    exists attrs, c_post d (VObj (c_id d) attrs) = Ok o /\ slookup (f_name f) attrs = Some (VEnum c mem).
  Proof.
    intros HT HD EF M FK H. destruct (enum_leaf d f c EF) as (L1 & L2 & L3). pose proof EF as (_ & _ & _ & _ & _ & _ & _ & EW).
    destruct (leaf_result _ _ _ _ _ _ _ _ _ _ _ HT HD L1 L2 FK H) as (attrs & v & A & B & C). rewrite L3 in C. unfold deserialize_enum in C.
    rewrite (enum_call_val P c mem y EW M) in C. exists attrs. split; [exact A|]. congruence.
  Qed.

  (** to_dict writes the value of the member *)
  Definition plain_se (d : classdef) (f : fielddef) : Prop :=
    c_serializer d = None /\ f_serializer f = None /\ find_ser P (c_class_ser d) (f_type f) = None.

  Lemma ser_enum n d nm ro rc skip c attrs f e mem y v :
    flatless d -> In f (c_fields d) -> f_skip f = false -> plain_se d f -> names_ok P d -> f_type f = TEnum e -> enum_wf P e ->
    slookup (f_name f) attrs = Some (VEnum e mem) -> enum_member P e mem = Some y ->
    ser_value P W K n d nm ro rc skip (VObj c attrs) f = Ok v -> v = y.
  Proof.
    intros FD Hf SK (S1 & S2 & S3) NO TY EW AT EM H. unfold ser_value in H. inv_bind H. rename a into fns.
    destruct FD as (_ & _ & _ & FL). rewrite se_field_own in H by (left; now apply FL). rewrite S2 in H.
    cbn [se_cfg r_class_ser] in H. rewrite S3 in H. cbn [has_some] in H.
    assert (SE : se_ty P (se_cfg d nm) false (EAttr obj_var (f_name f)) (f_type f) = Ok (EEnumVal (TEnum e) (EAttr obj_var (f_name f)))).
    { rewrite TY in *. cbn [se_ty]. cbn [se_cfg r_class_ser]. rewrite S3. cbn [bind]. unfold legacy_wrap. unfold se_cfg. cbn [r_legacy]. rewrite S1. reflexivity. }
    rewrite SE in H. cbn [bind mapM eval obj_var slookup] in H. change (String.eqb "obj" "obj") with true in H. cbn [of_option bind] in H.
    change (x_g (se_ctx P d fns ro rc skip)) with (se_globals P d) in H.
    rewrite (se_lookup P d (TEnum e) NO eq_refl eq_refl) in H.
    2: { eapply iter_types_field; eauto. rewrite TY. constructor. }
    cbn [bind getattr] in H. rewrite AT in H. cbn [bind enum_value enum_unwrap] in H. rewrite EM in H. cbn [of_option bind] in H.
    assert (SC : scalar_val y = true).
    { destruct EW as (de & G & _ & A & _). unfold enum_member in EM. rewrite G in EM. apply slookup_In in EM. now destruct (A _ _ EM). }
    destruct y; try discriminate SC; cbn [bind] in H; injection H as <-; reflexivity.
  Qed.

  Theorem C20_writes n c d attrs cc ro rc skip kvs f k e mem y v :
    get_class P c = Some d -> flatless d -> NoDup (map (wire_name W d) (filter written (c_fields d))) ->
    first_ser P (VObj c attrs) = None -> plain_arg cc ->
    to_dict P W K n (VObj c attrs) cc ro rc skip = Ok (VMap MDict kvs) ->
    In f (c_fields d) -> written f = true -> plain_se d f -> names_ok P d -> f_type f = TEnum e -> enum_wf P e ->
    slookup (f_name f) attrs = Some (VEnum e mem) -> enum_member P e mem = Some y ->
    wire_name W d f = Some k -> skey P kvs k = Some v -> v = y.
  Proof.
    intros Hd FD ND FS PA H Hf Wf PS NO TY EW AT EM WN SK.
    assert (FU : exists n', n = S (S n')).
    { unfold to_dict in H. destruct (se_ok_S P W K _ _ _ H) as [n1 ->]. apply (to_obj_inv P W K _ _ d) in H; auto. destruct (se_ok_S P W K _ _ _ H) as [n2 ->]. eauto. }
    destruct FU as [n' ->].
    rewrite <- (declared_flatless d FD) in ND.
    assert (Hf' : In f (declared d)) by (rewrite (declared_flatless d FD); apply filter_In; auto).
    destruct (C05_skip_predicates_partial P W K n' c d attrs cc ro rc skip _ f k Hd (flatless_shallow d FD) ND FS PA H Hf' WN) as (kvs' & v' & E & S & C). injection E as <-.
    assert (SKP : f_skip f = false) by (unfold written in Wf; destruct (f_skip f); [discriminate Wf|reflexivity]).
    pose proof (ser_enum _ _ _ _ _ _ _ _ _ _ _ _ _ FD Hf SKP PS NO TY EW AT EM S) as V. subst v'.
    destruct (drop_rule P W K n' d f y) as [r|].
    - destruct C as (b & _ & C). destruct b; [apply left_out_flatless in C; [congruence|exact FD]|]. congruence.
    - destruct (skip && is_vnone y); [apply left_out_flatless in C; [congruence|exact FD]|]. congruence.
  Qed.

  (** Round trip of an enum field, whatever the other fields are, unless a skip option drops the entry *)
  Theorem C20_round_trip n n' c d attrs cc ro rc ro' dn skip kvs f k e mem o tg t :
    get_class P c = Some d -> flatless d -> NoDup (map (wire_name W d) (filter written (c_fields d))) ->
    first_ser P (VObj c attrs) = None -> plain_arg cc ->
    to_dict P W K n (VObj c attrs) cc ro rc skip = Ok (VMap MDict kvs) ->
    enum_field d f e -> written f = true -> plain_se d f -> slookup (f_name f) attrs = Some (VEnum e mem) -> enum_member P e mem <> None ->
    wire_name W d f = Some k -> skey P kvs k <> None ->
    targets P t d -> from_dict P W K n' (tg, t) (VMap MDict kvs) ro' dn = Ok o ->
    exists attrs', c_post d (VObj (c_id d) attrs') = Ok o /\ slookup (f_name f) attrs' = Some (VEnum e mem).
  Proof.
    intros Hd FD ND FS PA H EF Wf PS AT EM WN SK HT H'. pose proof EF as (Hf & R & FL & PDE & NP & TY & NO & EW).
    destruct (enum_member P e mem) as [y|] eqn:EM'; [|congruence]. destruct (skey P kvs k) as [v|] eqn:SK'; [|congruence].
    pose proof (C20_writes n c d attrs cc ro rc skip kvs f k e mem y v Hd FD ND FS PA H Hf Wf PS NO TY EW AT EM' WN SK') as V. subst v.
    assert (DL : dictlike d) by (split; apply FD).
    eapply (C20_value n' tg t d MDict kvs ro' dn o f e mem y HT DL EF EM'); [|exact H']. unfold key_names. rewrite WN. cbn [first_key]. now rewrite SK'.
  Qed.

  (** * C22: aliases *)

  (** A field of a primitive type, a subclass or NewType of one, or an enum, of a class without rename_all *)
  Definition alias_field (d : classdef) (f : fielddef) : Prop :=
    In f (c_fields d) /\ read f = true /\ f_flatten f = false /\ plain_de P d f /\ f_rename f = None /\ c_rename_all d = None.
  Lemma alias_named d f : alias_field d f -> wire_name W d f = Some (f_name f).
  Proof. intros (_ & _ & _ & _ & A & B). unfold wire_name. now rewrite A, B. Qed.

  (** The first of the name and the aliases that is present gives the datum of the field. *)
  Theorem C22_scalar_partial n tg t d m kvs ro dn o f x :
    targets P t d -> dictlike d -> alias_field d f -> scalar_type (f_type f) = true -> leaf_scope d f ->
    first_key P kvs (f_name f :: f_alias f) = Some x ->
    from_dict P W K n (tg, t) (VMap m kvs) ro dn = Ok o ->
    exists attrs v, c_post d (VObj (c_id d) attrs) = Ok o /\ slookup (f_name f) attrs = Some v /\ leaf d dn f x = Ok v.
  Proof.
    intros HT HD AF ST SC FK H. pose proof (alias_named d f AF) as WN. pose proof AF as (A & B & C & D & _).
    eapply leaf_result; eauto; [|unfold key_names; now rewrite WN].
    split; [exact A|]. split; [exact B|]. split; [exact C|]. split; [exact D|]. split; [now right|now left].
  Qed.
  Theorem C22_scalar_takes_partial n t d m kvs ro dn known f x v :
    c_transparent d = false -> alias_field d f -> scalar_type (f_type f) = true -> leaf_scope d f ->
    first_key P kvs (f_name f :: f_alias f) = Some x -> leaf d dn f x = Ok v ->
    renders P W d -> known_fields P W (class_fuel P) d = Ok known ->
    takes P W K n d (top_ctx P d t ro dn) known (VMap m kvs) f v.
  Proof.
    intros T AF ST SC FK L RD KN. pose proof (alias_named d f AF) as WN. pose proof AF as (A & B & C & D & _).
    eapply leaf_takes; eauto; [|unfold key_names; now rewrite WN].
    split; [exact A|]. split; [exact B|]. split; [exact C|]. split; [exact D|]. split; [now right|now left].
  Qed.

  (** Optional fields too *)
  Theorem C22_optional_partial n tg t d m kvs ro dn o f a :
    targets P t d -> dictlike d -> alias_field d f -> f_default f = None -> f_type f = TUnion [a; TNone] -> scalar_type a = true ->
    find_de P (c_class_de d) a = None -> leaf_scope d (with_type a f) ->
    from_dict P W K n (tg, t) (VMap m kvs) ro dn = Ok o ->
    exists attrs v, c_post d (VObj (c_id d) attrs) = Ok o /\ slookup (f_name f) attrs = Some v /\
      match first_key P kvs (f_name f :: f_alias f) with
      | None | Some VNone => v = VNone
      | Some x => leaf d dn (with_type a f) x = Ok v
      end.
  Proof.
    intros HT HD AF DF TY ST CD SC H. pose proof (alias_named d f AF) as WN. pose proof AF as (Hf & R & FL & PD & _).
    assert (NN : a <> TNone) by (destruct a; discriminate).
    destruct (C33_optional P W K n tg t d m kvs ro dn o f a HT HD PD Hf R FL DF TY NN H) as (n' & attrs & v & A & B & C).
    exists attrs, v. split; [exact A|]. split; [exact B|].
    assert (KN : key_names W d f = f_name f :: f_alias f) by (unfold key_names; now rewrite WN). rewrite KN in C.
    destruct (first_key P kvs (f_name f :: f_alias f)) as [x|] eqn:FK; [|exact C].
    assert (L : de_value P W K n' d (top_ctx P d t ro dn) (VMap m kvs) (with_type a f) = Ok v -> leaf d dn (with_type a f) x = Ok v).
    { intros V. unfold de_value in V. inv_bind V.
      rewrite (leaf_eval_in d f (with_type a f) _ m kvs x n' t ro dn) in V; auto.
      - cbn [with_type f_type]. rewrite TY. eapply sub_union; [now left|constructor].
      - destruct PD as (P1 & P2 & P3). split; [exact P1|]. split; [exact P2|]. intros _. exact CD.
      - right. exact WN.
      - now left.
      - change (key_names W d (with_type a f)) with (key_names W d f). now rewrite KN. }
    destruct x; try exact C; apply L, C.
  Qed.
End Field.

(** * Examples *)
From Verif Require Import Ex Decide.

Module FieldEx.
  Definition color := mkEnum "Color" "Color" None [("red", VInt 1); ("blue", VInt 2)].
  Definition flit := fld "lit" (TLit [LStr "a"; LInt 7]).
  Definition fcol := fld "col" (TEnum "Color").
  Definition fnum := fld "num" TFloat.
  Definition fal := with_names None ["x"; "y"] (fld "al" TInt).
  Definition fop := with_names None ["oz"] (fld "op" (TOpt TString)).
  (** __post_init__ rejects negative values of al *)
  Definition post (o : pyval) : res pyval :=
    match o with
    | VObj _ l => match slookup "al" l with Some (VInt z) => if Z.ltb z 0 then Raise XValue else Ok o | _ => Ok o end
    | _ => Ok o
    end.
  Definition with_post (p : pyval -> res pyval) (d : classdef) : classdef :=
    {| c_id := c_id d; c_name := c_name d; c_fields := c_fields d;
       c_mro := c_mro d; c_rename_all := c_rename_all d; c_reuse := c_reuse d; c_conv := c_conv d;
       c_skip_if_default := c_skip_if_default d; c_skip_if_none := c_skip_if_none d; c_serializer := c_serializer d; c_deserializer := c_deserializer d;
       c_tagging := c_tagging d; c_check := c_check d; c_ser_class_var := c_ser_class_var d; c_class_vars := c_class_vars d;
       c_transparent := c_transparent d; c_class_ser := c_class_ser d; c_class_de := c_class_de d; c_deny := c_deny d;
       c_tvars := c_tvars d; c_post := p; c_hashable := c_hashable d |}.
  Definition dF := with_post post (cls "F" [flit; fcol; fnum; fal; fop]).
  Definition dC := clsx "C" [fld "i" TInt; fld "q" (TNewType "Q" PStr)] None TagExternal TcCoerce false false.
  Definition dO := cls "O" [fld "k" TInt; fld "inner" (TClass "F")].
  Definition P := prog [dF; dC; dO] [color].
  Definition L := expand P [TLit [LStr "a"; LInt 7]; TEnum "Color"; TFloat; TInt; TOpt TString; TString; TNone; TClass "F"; TClass "C"; TClass "O"; TNewType "Q" PStr].

  Lemma tF : targets P (TClass "F") dF. Proof. exists "F". repeat split. Qed.
  Lemma tC : targets P (TClass "C") dC. Proof. exists "C". repeat split. Qed.
  Lemma tO : targets P (TClass "O") dO. Proof. exists "O". repeat split. Qed.
  Lemma dlF : dictlike dF. Proof. split; [reflexivity|]. repeat constructor; simpl; intuition discriminate. Qed.
  Lemma dlC : dictlike dC. Proof. split; [reflexivity|]. repeat constructor; simpl; intuition discriminate. Qed.
  Lemma dlO : dictlike dO. Proof. split; [reflexivity|]. repeat constructor; simpl; intuition discriminate. Qed.
  Lemma namesF : names_ok P dF. Proof. apply (names_okb_ok P dF L); vm_compute; reflexivity. Qed.
  Lemma namesO : names_ok P dO. Proof. apply (names_okb_ok P dO L); vm_compute; reflexivity. Qed.
  Lemma litsF : literals_ok P dF. Proof. apply (literals_okb_ok P dF L); vm_compute; reflexivity. Qed.
  Lemma wfC : enum_wf P "Color". Proof. apply enum_wfb_ok. vm_compute. reflexivity. Qed.
  Lemma plain d f : c_deserializer d = None -> f_deserializer f = None -> find_de P (c_class_de d) (f_type f) = None -> plain_de P d f.
  Proof. intros A B C. split; [exact A|]. split; [rewrite B; discriminate|auto]. Qed.

  Lemma lit_ok : literal_field P dF flit [LStr "a"; LInt 7].
  Proof. split; [simpl; auto|]. repeat split; try (apply plain; reflexivity); try discriminate; apply litsF. Qed.
  Lemma col_ok : enum_field P W0 dF fcol "Color".
  Proof. split; [simpl; auto|]. split; [reflexivity|]. split; [reflexivity|]. split; [apply plain; reflexivity|]. split; [now left|]. split; [reflexivity|]. split; [apply namesF|apply wfC]. Qed.
  Lemma num_ok : float_field P W0 dF fnum.
  Proof. split; [simpl; auto|]. split; [reflexivity|]. split; [reflexivity|]. split; [apply plain; reflexivity|]. split; [now left|reflexivity]. Qed.
  Lemma al_ok : alias_field P dF fal.
  Proof. split; [simpl; auto|]. split; [reflexivity|]. split; [reflexivity|]. split; [apply plain; reflexivity|]. split; reflexivity. Qed.
  Lemma op_ok : alias_field P dF fop.
  Proof. split; [simpl; auto 9|]. split; [reflexivity|]. split; [reflexivity|]. split; [apply plain; reflexivity|]. split; reflexivity. Qed.
  Lemma hasC : exists mem, enum_member P "Color" mem <> None. Proof. exists "red". discriminate. Qed.
  Lemma int_ok : int_enum P "Color".
  Proof. exists color. split; [reflexivity|]. intros m y [E|[E|[]]]; injection E as <- <-; eauto. Qed.

  Definition zero := VFloat (Floats.SpecFloat.S754_zero false).
  (** lit, col, num, and al under its second alias *)
  Definition data (lit col num : pyval) (z : Z) : list (pyval * pyval) :=
    [(VStr "lit", lit); (VStr "col", col); (VStr "num", num); (VStr "y", VInt z); (VStr "oz", VStr "s")].
  Definition out (col : string) (r : pyval) (z : Z) : pyval :=
    VObj "F" [("lit", VStr "a"); ("col", VEnum "Color" col); ("num", r); ("al", VInt z); ("op", VStr "s")].
  Lemma ran z : Z.ltb z 0 = false ->
    from_dict P W0 [] 9 (TagExternal, TClass "F") (VMap MDict (data (VStr "a") (VInt 2) zero z)) None None = Ok (out "blue" zero z).
  Proof. intros Z. cbv - [Z.ltb]. rewrite Z. reflexivity. Qed.
  Definition one := VFloat (Floats.SpecFloat.S754_finite false 4503599627370496 (-52)).
  Lemma rendersF : renders P W0 dF. Proof. eexists. vm_compute. reflexivity. Qed.
  Definition known := ["lit"; "col"; "num"; "al"; "x"; "y"; "op"; "oz"].
  Lemma knownF : known_fields P W0 (class_fuel P) dF = Ok known. Proof. vm_compute. reflexivity. Qed.
  Lemma keysF kvs : keys_ok P dF known kvs. Proof. intros D. discriminate D. Qed.
  Ltac untilF pre post := exists known, pre, post; split; [exact rendersF|]; split; [exact knownF|]; split; [apply keysF|]; split; [reflexivity|].
  Ltac took := eexists; eexists; exists []; (split; [vm_compute; reflexivity|split; [discriminate|vm_compute; reflexivity]]).

  Example C19_accepts_ex z : Z.ltb z 0 = false -> listed P [LStr "a"; LInt 7] (VStr "a") /\
    exists attrs, out "blue" zero z = VObj "F" attrs /\ slookup "lit" attrs = Some (VStr "a").
  Proof.
    intros Z. destruct (C19_accepts P W0 [] 9 TagExternal _ dF MDict (data (VStr "a") (VInt 2) zero z) None None _ flit _ "lit" (VStr "a") tF dlF lit_ok eq_refl eq_refl (ran z Z)) as (A & attrs & B & C).
    split; [exact A|]. exists attrs. split; [|exact C]. cbn in B. destruct (slookup "al" attrs) as [[]|]; try congruence. destruct (z0 <? 0)%Z; congruence.
  Qed.
  Example C19_rejects_ex z x : ~ listed P [LStr "a"; LInt 7] x ->
    from_dict P W0 [] 9 (TagExternal, TClass "F") (VMap MDict (data x (VInt 2) zero z)) None None = Raise (XSerde (MWrap (XSerde MLiteral))).
  Proof.
    intros N. apply (C19_rejects P W0 [] 7 TagExternal _ dF MDict (data x (VInt 2) zero z) None None flit _ "lit" x tF dlF lit_ok eq_refl eq_refl N).
    untilF (@nil fielddef) [fcol; fnum; fal; fop]. constructor.
  Qed.
  Example C19_rejects_ex2 : ~ listed P [LStr "a"; LInt 7] (VInt 8). Proof. intros (y & [<-|[<-|[]]] & H); discriminate H. Qed.
  Example C19_takes_ex z : takes P W0 [] 5 dF (top_ctx P dF (TClass "F") None None) known (VMap MDict (data (VInt 7) (VInt 2) zero z)) flit (VInt 7).
  Proof.
    apply (C19_takes P W0 [] 5 _ dF MDict (data (VInt 7) (VInt 2) zero z) None None known flit [LStr "a"; LInt 7] "lit" (VInt 7) eq_refl lit_ok eq_refl eq_refl); [|apply rendersF|apply knownF].
    exists (LInt 7). split; [simpl; auto|reflexivity].
  Qed.

  Example C20_reads_ex z : Z.ltb z 0 = false -> exists attrs mem, out "blue" zero z = VObj "F" attrs /\ slookup "col" attrs = Some (VEnum "Color" mem) /\ stands_for P W0 "Color" mem (VInt 2).
  Proof.
    intros Z. destruct (C20_reads P W0 [] 9 TagExternal _ dF MDict (data (VStr "a") (VInt 2) zero z) None None _ fcol "Color" (VInt 2) tF dlF col_ok (or_introl int_ok) hasC eq_refl I (ran z Z))
      as (attrs & mem & A & B & C). exists attrs, mem. split; [|auto]. cbn in A. destruct (slookup "al" attrs) as [[]|]; try congruence. destruct (z0 <? 0)%Z; congruence.
  Qed.
  (** "2" stands for blue, "3" and "x" and 3 for no member. *)
  Example C20_text_ex : stands_for P W0 "Color" "blue" (VStr "2").
  Proof. exists (VInt 2). split; [reflexivity|]. right. exists "2", 2%Z. repeat split. Qed.
  Example C20_takes_ex z : exists mem', takes P W0 [] 5 dF (top_ctx P dF (TClass "F") None None) known (VMap MDict (data (VInt 7) (VStr "2") zero z)) fcol (VEnum "Color" mem') /\
    stands_for P W0 "Color" mem' (VStr "2").
  Proof.
    apply (C20_takes P W0 [] 5 _ dF MDict (data (VInt 7) (VStr "2") zero z) None None known fcol "Color" (VStr "2") "blue" eq_refl col_ok (or_introl int_ok) eq_refl I C20_text_ex rendersF knownF).
  Qed.
  Lemma no_member x : (forall y, In y [VInt 1; VInt 2] -> eqv P y x = false) -> (forall s z, x = VStr s -> w_int_of_str W0 s = Some z -> z <> 1%Z /\ z <> 2%Z) ->
    forall mem, ~ stands_for P W0 "Color" mem x.
  Proof.
    intros A B mem (y & E & H). assert (I : In y [VInt 1; VInt 2]).
    { change (slookup mem [("red", VInt 1); ("blue", VInt 2)] = Some y) in E. apply slookup_In in E. destruct E as [E|[E|[]]]; injection E as _ <-; simpl; auto. }
    destruct H as [H|(s & z & -> & S & ->)]; [rewrite A in H; [discriminate|exact I]|]. destruct (B s z eq_refl S). destruct I as [E'|[E'|[]]]; congruence.
  Qed.
  Example C20_rejects_ex z : from_dict P W0 [] 9 (TagExternal, TClass "F") (VMap MDict (data (VStr "a") (VStr "3") zero z)) None None = Raise (XSerde (MWrap XValue)).
  Proof.
    apply (C20_rejects P W0 [] 7 TagExternal _ dF MDict (data (VStr "a") (VStr "3") zero z) None None fcol "Color" (VStr "3") tF dlF col_ok (or_introl int_ok) hasC eq_refl I).
    - apply no_member; [intros y [<-|[<-|[]]]; reflexivity|]. intros s w [= <-] H. vm_compute in H. injection H as <-. split; discriminate.
    - untilF [flit] [fnum; fal; fop]. repeat constructor. took.
  Qed.
  Example C20_value_ex z : Z.ltb z 0 = false -> exists attrs, out "blue" zero z = VObj "F" attrs /\ slookup "col" attrs = Some (VEnum "Color" "blue").
  Proof.
    intros Z. destruct (C20_value P W0 [] 9 TagExternal _ dF MDict (data (VStr "a") (VInt 2) zero z) None None _ fcol "Color" "blue" (VInt 2) tF dlF col_ok eq_refl eq_refl (ran z Z))
      as (attrs & A & B). exists attrs. split; [|auto]. cbn in A. destruct (slookup "al" attrs) as [[]|]; try congruence. destruct (z0 <? 0)%Z; congruence.
  Qed.
  Definition attrs1 (z : Z) := [("lit", VStr "a"); ("col", VEnum "Color" "blue"); ("num", zero); ("al", VInt z); ("op", VStr "s")].
  Definition dict1 (z : Z) := [(VStr "lit", VStr "a"); (VStr "col", VInt 2); (VStr "num", zero); (VStr "al", VInt z); (VStr "op", VStr "s")].
  Lemma wrote z : to_dict P W0 [] 9 (VObj "F" (attrs1 z)) None None None false = Ok (VMap MDict (dict1 z)). Proof. reflexivity. Qed.
  Lemma flatF : flatless dF. Proof. split; [reflexivity|]. split; [reflexivity|]. split; [apply dlF|]. intros f Hf. simpl in Hf. repeat (destruct Hf as [<-|Hf]; [reflexivity|]). destruct Hf. Qed.
  Lemma nodupF : NoDup (map (wire_name W0 dF) (filter written (c_fields dF))). Proof. cbn. repeat constructor; simpl; intuition discriminate. Qed.
  Example C20_writes_ex z v : skey P (dict1 z) "col" = Some v -> v = VInt 2.
  Proof.
    apply (C20_writes P W0 [] 9 "F" dF (attrs1 z) None None None false (dict1 z) fcol "col" "Color" "blue" (VInt 2) v eq_refl flatF nodupF eq_refl I (wrote z)
      ltac:(simpl; auto) eq_refl ltac:(repeat split) namesF eq_refl wfC eq_refl eq_refl eq_refl).
  Qed.
  Example C20_round_trip_ex z o n : from_dict P W0 [] n (TagExternal, TClass "F") (VMap MDict (dict1 z)) None None = Ok o ->
    exists attrs', post (VObj "F" attrs') = Ok o /\ slookup "col" attrs' = Some (VEnum "Color" "blue").
  Proof.
    apply (C20_round_trip P W0 [] 9 n "F" dF (attrs1 z) None None None None None false (dict1 z) fcol "col" "Color" "blue" o TagExternal (TClass "F") eq_refl flatF nodupF eq_refl I (wrote z)
      col_ok eq_refl ltac:(repeat split) eq_refl ltac:(discriminate) eq_refl ltac:(discriminate) tF).
  Qed.

  (** al is given under its second alias, op under its only one. *)
  Example C22_scalar_ex z : Z.ltb z 0 = false -> exists attrs, out "blue" zero z = VObj "F" attrs /\ slookup "al" attrs = Some (VInt z).
  Proof.
    intros Z. destruct (C22_scalar_partial P W0 [] 9 TagExternal _ dF MDict (data (VStr "a") (VInt 2) zero z) None None _ fal (VInt z) tF dlF al_ok eq_refl I eq_refl (ran z Z))
      as (attrs & v & A & B & C). exists attrs. injection C as <-. split; [|auto]. cbn in A. change (slookup "al" attrs = Some (VInt z)) in B. rewrite B, Z in A. congruence.
  Qed.
  Example C22_optional_ex z : Z.ltb z 0 = false -> exists attrs, out "blue" zero z = VObj "F" attrs /\ slookup "op" attrs = Some (VStr "s").
  Proof.
    intros Z. destruct (C22_optional_partial P W0 [] 9 TagExternal _ dF MDict (data (VStr "a") (VInt 2) zero z) None None _ fop TString tF dlF op_ok eq_refl eq_refl eq_refl eq_refl I (ran z Z))
      as (attrs & v & A & B & C). exists attrs. injection C as <-. split; [|auto]. cbn in A. destruct (slookup "al" attrs) as [[]|]; try congruence. destruct (z0 <? 0)%Z; congruence.
  Qed.
  Example C22_scalar_takes_ex z : takes P W0 [] 5 dF (top_ctx P dF (TClass "F") None None) known (VMap MDict (data (VInt 7) (VStr "2") zero z)) fal (VInt z).
  Proof. apply (C22_scalar_takes_partial P W0 [] 5 _ dF MDict (data (VInt 7) (VStr "2") zero z) None None known fal (VInt z) (VInt z) eq_refl al_ok eq_refl I eq_refl eq_refl rendersF knownF). Qed.

  (** type_check=coerce *)
  Lemma i_ok : coerce_field P W0 dC (fld "i" TInt) None.
  Proof. split; [simpl; auto|]. split; [reflexivity|]. split; [reflexivity|]. split; [apply plain; reflexivity|]. split; [now left|]. split; [reflexivity|]. split; [now left|exact I]. Qed.
  Lemma q_ok : coerce_field P W0 dC (fld "q" (TNewType "Q" PStr)) None.
  Proof. split; [simpl; auto|]. split; [reflexivity|]. split; [reflexivity|]. split; [apply plain; reflexivity|]. split; [now left|]. split; [reflexivity|]. split; [now left|exact I]. Qed.
  Definition cdata (i q : pyval) := [(VStr "i", i); (VStr "q", q)].
  Lemma ranC q : from_dict P W0 [] 9 (TagExternal, TClass "C") (VMap MDict (cdata (VStr "12") (VStr q))) None None = Ok (VObj "C" [("i", VInt 12); ("q", VStr q)]).
  Proof. reflexivity. Qed.
  Lemma untilI i q : reads_until P W0 [] 7 (TClass "C") dC MDict (cdata i q) None None (fld "i" TInt).
  Proof. exists ["i"; "q"], (@nil fielddef), [fld "q" (TNewType "Q" PStr)]. split; [eexists; vm_compute; reflexivity|]. repeat split; try (intros D; discriminate D). constructor. Qed.
  Example C26_converts_ex q : exists v, slookup "i" [("i", VInt 12); ("q", VStr q)] = Some v /\ call_ctor P W0 TInt (VStr "12") = Ok v.
  Proof.
    destruct (C26_converts P W0 [] 9 TagExternal _ dC MDict (cdata (VStr "12") (VStr q)) None None _ (fld "i" TInt) (VStr "12") tC dlC i_ok eq_refl (ranC q)) as (_ & attrs & v & A & B & C).
    injection A as ->. eauto.
  Qed.
  Example C26_none_ex q : from_dict P W0 [] 9 (TagExternal, TClass "C") (VMap MDict (cdata VNone q)) None None = Raise (XSerde (MWrap (XSerde (MCoerceNone "C" "i")))).
  Proof. apply (C26_none P W0 [] 7 TagExternal _ dC MDict (cdata VNone q) None None (fld "i" TInt) tC dlC i_ok eq_refl (untilI _ _)). Qed.
  Example C26_error_ex q l : from_dict P W0 [] 9 (TagExternal, TClass "C") (VMap MDict (cdata (vlist l) q)) None None = Raise (XSerde (MWrap (XSerde (MCoerce "C" "i")))).
  Proof. apply (C26_error P W0 [] 7 TagExternal _ dC MDict (cdata (vlist l) q) None None (fld "i" TInt) (vlist l) XType tC dlC i_ok eq_refl ltac:(discriminate) eq_refl (untilI _ _)). Qed.
  Example C26_same_ex q : exists attrs, VObj "C" [("i", VInt 12); ("q", VStr q)] = VObj "C" attrs /\ slookup "q" attrs = Some (VStr q).
  Proof.
    destruct (C26_same P W0 [] 9 TagExternal _ dC MDict (cdata (VStr "12") (VStr q)) None None _ (fld "q" (TNewType "Q" PStr)) PStr (VStr q) tC dlC q_ok (or_intror (ex_intro _ "Q" eq_refl)) eq_refl eq_refl (ranC q)) as (attrs & A & B).
    injection A as ->. eauto.
  Qed.
  Example C26_takes_ex q : takes P W0 [] 5 dC (top_ctx P dC (TClass "C") None None) ["i"; "q"] (VMap MDict (cdata (VStr "12") (VStr q))) (fld "i" TInt) (VInt 12).
  Proof. apply (C26_takes P W0 [] 5 _ dC MDict (cdata (VStr "12") (VStr q)) None None _ (fld "i" TInt) (VStr "12") (VInt 12) eq_refl i_ok eq_refl ltac:(discriminate) eq_refl); [eexists|]; vm_compute; reflexivity. Qed.

  (** A JSON document, and a YAML one in a runtime where float("1") = 1.0 *)
  Definition W1 : world := mkWorld (w_case W0) (w_ctor W0) (w_iso W0) (fun s => if String.eqb s "1" then Some (Floats.SpecFloat.S754_finite false 4503599627370496 (-52)) else None)
    (w_int_of_str W0) (w_str W0) (w_pick W0).
  Definition J (num : pyval) : codec := mkCodec (fun _ => Ok "") (fun _ => Ok (VMap MDict (data (VStr "a") (VInt 2) num 5))).
  Lemma ranJ : from_json P W1 [] (J (VInt 1)) 9 (TagExternal, TClass "F") "" true = Ok (out "blue" one 5). Proof. vm_compute. reflexivity. Qed.
  Lemma ranY : from_yaml P W1 [] (J (VStr "1")) 9 (TagExternal, TClass "F") "" true = Ok (out "blue" one 5). Proof. vm_compute. reflexivity. Qed.
  Lemma num_ok1 : float_field P W1 dF fnum.
  Proof. split; [simpl; auto|]. split; [reflexivity|]. split; [reflexivity|]. split; [apply plain; reflexivity|]. split; [now left|reflexivity]. Qed.
  Example C27_json_ex : exists attrs v, out "blue" one 5 = VObj "F" attrs /\ slookup "num" attrs = Some v /\ json_number (VInt 1) v.
  Proof.
    destruct (C27_json P W1 [] 9 (J (VInt 1)) TagExternal _ "" dF MDict (data (VStr "a") (VInt 2) (VInt 1) 5) _ fnum (VInt 1) tF dlF num_ok1 eq_refl eq_refl ltac:(right; eauto) ranJ) as (attrs & v & A & B & C).
    exists attrs, v. split; [|auto]. cbn in A. destruct (slookup "al" attrs) as [[]|]; try congruence. destruct (z <? 0)%Z; congruence.
  Qed.
  Example C27_yaml_ex : exists attrs v, out "blue" one 5 = VObj "F" attrs /\ slookup "num" attrs = Some v /\ yaml_number W1 (VStr "1") v.
  Proof.
    destruct (C27_yaml P W1 [] 9 (J (VStr "1")) TagExternal _ "" dF MDict (data (VStr "a") (VInt 2) (VStr "1") 5) _ fnum (VStr "1") tF dlF num_ok1 eq_refl eq_refl ltac:(left; exact I) ranY) as (attrs & v & A & B & C).
    exists attrs, v. split; [|auto]. cbn in A. destruct (slookup "al" attrs) as [[]|]; try congruence. destruct (z <? 0)%Z; congruence.
  Qed.
  Lemma rendersF1 : renders P W1 dF. Proof. eexists. vm_compute. reflexivity. Qed.
  Lemma until1 hook x : reads_until P W1 [] 7 (TClass "F") dF MDict (data (VStr "a") (VInt 2) x 5) (Some false) (Some hook) fnum.
  Proof.
    exists known, [flit; fcol], [fal; fop]. split; [exact rendersF1|]. split; [vm_compute; reflexivity|]. split; [apply keysF|]. split; [reflexivity|].
    repeat constructor; took.
  Qed.
  Example C27_json_rejects_ex x : no_number x -> from_json P W1 [] (J x) 9 (TagExternal, TClass "F") "" true = Raise (XSerde (MWrap (XSerde MNumber))).
  Proof. intros N. apply (C27_json_rejects P W1 [] 7 (J x) TagExternal _ "" dF MDict (data (VStr "a") (VInt 2) x 5) fnum x tF dlF num_ok1 eq_refl eq_refl N (until1 _ x)). Qed.
  Example C27_yaml_rejects_ex b : from_yaml P W1 [] (J (VBool b)) 9 (TagExternal, TClass "F") "" true = Raise (XSerde (MWrap (XSerde MNumber))).
  Proof. apply (C27_yaml_rejects P W1 [] 7 (J (VBool b)) TagExternal _ "" dF MDict (data (VStr "a") (VInt 2) (VBool b) 5) fnum (VBool b) tF dlF num_ok1 eq_refl eq_refl I ltac:(discriminate) (until1 _ _)). Qed.
  Example C27_json_takes_ex : takes P W1 [] 5 dF (top_ctx P dF (TClass "F") None (Some (deserialize_json_numbers P W1))) known (VMap MDict (data (VStr "a") (VInt 2) (VInt 1) 5)) fnum one.
  Proof. apply (C27_json_takes P W1 [] 5 _ dF MDict (data (VStr "a") (VInt 2) (VInt 1) 5) None known fnum (VInt 1) one eq_refl num_ok1 eq_refl); [constructor; vm_compute; reflexivity|exact rendersF1|vm_compute; reflexivity]. Qed.
  Example C27_yaml_takes_ex : takes P W1 [] 5 dF (top_ctx P dF (TClass "F") None (Some (deserialize_yaml_numbers P W1))) known (VMap MDict (data (VStr "a") (VInt 2) (VStr "1") 5)) fnum one.
  Proof. apply (C27_yaml_takes P W1 [] 5 _ dF MDict (data (VStr "a") (VInt 2) (VStr "1") 5) None known fnum (VStr "1") one eq_refl num_ok1 eq_refl); [apply yn_str; vm_compute; reflexivity|exact rendersF1|vm_compute; reflexivity]. Qed.
  Definition J0 : codec := mkCodec (fun _ => Ok "") (fun _ => Ok (VInt 1)).
  Example C27_json_top_ex n : from_json P W1 [] J0 (S n) (TagExternal, TPrim PFloat) "" true = Ok one.
  Proof. apply (C27_json_top P W1 [] n J0 TagExternal "" (VInt 1) one eq_refl eq_refl); [right; eauto|]. constructor. vm_compute. reflexivity. Qed.

  (** The constructor of F rejects negative numbers, alone and inside O. *)
  Definition val (z : Z) (f : fielddef) : pyval :=
    match f_name f with "lit" => VStr "a" | "col" => VEnum "Color" "blue" | "num" => zero | "al" => VInt z | _ => VStr "s" end.
  Lemma allF n mg mgtv vta ro z : exists known0, renders P W0 dF /\ known_fields P W0 (class_fuel P) dF = Ok known0 /\ keys_ok P dF known0 (data (VStr "a") (VInt 2) zero z) /\
      (forall f, In f (c_fields dF) -> read f = true -> takes P W0 [] n dF (ctx_of P dF ro None mg mgtv vta) known0 (VMap MDict (data (VStr "a") (VInt 2) zero z)) f (val z f)) /\
      (forall f, In f (c_fields dF) -> read f = false -> dflt f = Some (Ok (val z f))) /\
      (checked dF = true -> forall f, In f (c_fields dF) -> read f = true -> bear P W0 (val z f) (f_type f) = true).
  Proof.
    exists known. split; [exact rendersF|]. split; [exact knownF|]. split; [apply keysF|]. split; [|split].
    - intros f Hf R. simpl in Hf. destruct Hf as [<-|[<-|[<-|[<-|[<-|[]]]]]]; eexists; exists []; (split; [vm_compute; reflexivity|split; [discriminate|vm_compute; reflexivity]]).
    - intros f Hf R. simpl in Hf. destruct Hf as [<-|[<-|[<-|[<-|[<-|[]]]]]]; discriminate R.
    - intros _ f Hf _. simpl in Hf. destruct Hf as [<-|[<-|[<-|[<-|[<-|[]]]]]]; reflexivity.
  Qed.
  Example C47_constructor_ex z n : Z.ltb z 0 = true ->
    from_dict P W0 [] (S (S n)) (TagExternal, TClass "F") (VMap MDict (data (VStr "a") (VInt 2) zero z)) None None = Raise XValue.
  Proof.
    intros Z. rewrite (C47_constructor P W0 [] n TagExternal (TClass "F") dF MDict (data (VStr "a") (VInt 2) zero z) None None (val z) tF dlF).
    - cbn. now rewrite Z.
    - destruct (allF n (Some (TClass "F")) None None None z) as (k & H). exists k. exact H.
  Qed.
  Example C47_nested_class_ex z n : Z.ltb z 0 = true ->
    from_dict P W0 [] (S (S (S n))) (TagExternal, TClass "O") (VMap MDict [(VStr "k", VInt 3); (VStr "inner", VMap MDict (data (VStr "a") (VInt 2) zero z))]) None None = Raise XValue.
  Proof.
    intros Z. apply (C47_nested_class P W0 [] n TagExternal (TClass "O") dO MDict [(VStr "k", VInt 3); (VStr "inner", VMap MDict (data (VStr "a") (VInt 2) zero z))] None None
      (fld "inner" (TClass "F")) "F" dF MDict (data (VStr "a") (VInt 2) zero z) "inner" (val z) XValue tO dlO); try reflexivity; try discriminate; auto.
    - simpl; auto.
    - apply plain; reflexivity.
    - apply namesO.
    - exists ["k"; "inner"], [fld "k" TInt], (@nil fielddef). split; [eexists; vm_compute; reflexivity|]. split; [vm_compute; reflexivity|]. split; [intros D; discriminate D|].
      split; [reflexivity|]. repeat constructor. took.
    - intros mg mgtv vta. apply allF.
    - apply dlF.
    - cbn. now rewrite Z.
  Qed.
End FieldEx.

Print Assumptions C19_accepts.
Print Assumptions C19_rejects.
Print Assumptions C19_takes.
Print Assumptions C20_reads.
Print Assumptions C20_takes.
Print Assumptions C20_rejects.
Print Assumptions C20_value.
Print Assumptions C20_writes.
Print Assumptions C20_round_trip.
Print Assumptions C22_scalar_partial.
Print Assumptions C22_scalar_takes_partial.
Print Assumptions C22_optional_partial.
Print Assumptions C26_converts.
Print Assumptions C26_none.
Print Assumptions C26_error.
Print Assumptions C26_same.
Print Assumptions C26_takes.
Print Assumptions C27_json.
Print Assumptions C27_yaml.
Print Assumptions C27_json_takes.
Print Assumptions C27_yaml_takes.
Print Assumptions C27_json_rejects.
Print Assumptions C27_yaml_rejects.
Print Assumptions C27_json_top.
Print Assumptions C47_constructor.
Print Assumptions C47_nested.
Print Assumptions C47_nested_class.
