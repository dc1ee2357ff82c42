(** Deserialization ends: C62. *)
From Coq Require Import String Ascii List NArith ZArith Bool Lia.
From Verif Require Import Base PyVal PyType Program Compat Syntax SeRender DeRender Eval Facts Mono Ex Spec Cover Cache Depend PropsEnd.
Import ListNotations.
Open Scope string_scope.
Open Scope list_scope.

Section REnd.
  Variables (P : program) (W : world) (K : list (tagging * pytype)).
  Notation run := (run P W K).

  (** * What has to be assumed *)

  (** The code of the user that reading calls returns or raises. *)
  Record total_reader (d : classdef) : Prop := {
    rd_deserializer : forall g t, c_deserializer d = Some g -> total (g t);
    rd_class_de : forall s t, c_class_de d = Some s -> total (cd_fn s t);
    rd_field : forall f g, In f (c_fields d) -> f_deserializer f = Some (FFun g) -> total g;
    rd_factory : forall f r, In f (c_fields d) -> f_default f = Some (DFact r) -> r <> NoFuel;
    rd_post : total (c_post d)
  }.
  Definition total_readers : Prop :=
    (forall k, total (w_ctor W k)) /\ (forall k, total (w_iso W k)) /\ (forall s t, In s (p_des P) -> total (cd_fn s t)) /\
    (forall c d, get_class P c = Some d -> total_reader d).

  (** The classes whose deserializer is called for an annotation: those named in it *)
  Definition mentions (t : pytype) (d : classdef) : Prop := exists c,
    (sub_ty (TClass c) t \/ exists a, sub_ty (TGen c a) t) /\
    exists c', get_class P c' = Some d /\ typename P (TClass c') = typename P (TClass c).
  (** Classes may refer to each other and to themselves, but not by way of a field that passes on the data itself:
      a flattened field or the field of a transparent class. *)
  Definition staged : Prop := exists rank : string -> nat, forall c d f d',
    get_class P c = Some d -> In f (c_fields d) -> f_init f = true -> f_skip f = false -> f_skip_de f = false ->
    mentions (f_type f) d' ->
    rank (c_id d') <= rank c /\ (c_transparent d = true \/ f_flatten f = true -> rank (c_id d') < rank c).

  (** Types in a type, type arguments of generic classes included *)
  Inductive within : pytype -> pytype -> Prop :=
  | wi_sub u t : sub_ty u t -> within u t
  | wi_gen u t c args a : sub_ty (TGen c args) t -> In a args -> within u a -> within u t.
  (** The unions in the annotations of the classes, in the class argument [c], and in those of calls before *)
  Definition read_union (c : pytype) (l : list pytype) : Prop := exists t, within (TUnion l) t /\
    ((exists d f, In d (p_classes P) /\ In f (c_fields d) /\ f_type f = t) \/ t = c \/ exists tg, In (tg, t) K).
  (** ... have different names (C37 has what happens if they do not). *)
  Definition read_apart (c : pytype) : Prop := forall u l, read_union c u -> read_union c l ->
    union_func_name P "union_de" u = union_func_name P "union_de" l -> u = l.

  (** * Plain operations return or raise *)
  Hypothesis TR : total_readers.

  Ltac fin :=
    repeat first
      [ discriminate | apply fin_of_option
      | match goal with |- bind _ _ <> _ => apply fin_bind; [|intros ? _] end
      | match goal with |- mapM _ _ <> _ => apply fin_mapM; intros ? _ end
      | match goal with |- foldM _ _ _ <> _ => apply fin_foldM; intros ? ? _ end
      | match goal with |- match ?x with _ => _ end <> _ => destruct x end
      | match goal with |- (if ?x then _ else _) <> _ => destruct x end
      | assumption ].

  Lemma rfin_prim_ctor p v : prim_ctor P W p v <> NoFuel.
  Proof.
    destruct TR as (T & _). unfold prim_ctor, Z_of_float, float_of_Z. destruct p; fin; apply T.
  Qed.
  Lemma rfin_call_ctor t v : call_ctor P W t v <> NoFuel.
  Proof. destruct TR as (T & _). unfold call_ctor. destruct t; fin; try apply T; try apply fin_enum_call; apply rfin_prim_ctor. Qed.
  Lemma rfin_coerce c f t v : coerce_object P W c f t v <> NoFuel.
  Proof. unfold coerce_object. destruct v; try discriminate; (apply fin_catch; [apply rfin_call_ctor|discriminate]). Qed.
  Lemma rfin_retype v s : retype P W v s <> NoFuel.
  Proof.
    destruct TR as (T & _). unfold retype. destruct v; fin; try apply rfin_prim_ctor; try apply fin_iter; try apply fin_mk_seq; try apply fin_enum_call; apply T.
  Qed.
  Lemma rfin_de_enum c v : deserialize_enum P W c v <> NoFuel.
  Proof.
    unfold deserialize_enum. pose proof (fin_enum_call P c v) as E. destruct (enum_call P c v) as [x|x|]; [discriminate| |easy].
    destruct x; try discriminate; fin; try apply fin_enum_call; apply rfin_retype.
  Qed.
  Lemma fin_getopt v k : getopt P v k <> NoFuel.
  Proof. unfold getopt. fin. Qed.
  Lemma fin_slice v n : slice P v n <> NoFuel.
  Proof. unfold slice. destruct v; fin. Qed.
  Lemma fin_py_in k v : py_in P k v <> NoFuel.
  Proof. unfold py_in. destruct v; fin. Qed.
  Lemma fin_get_aliases d ks r : get_by_aliases P d ks r <> NoFuel.
  Proof. induction ks; cbn [get_by_aliases]; fin; [apply fin_py_in|apply fin_getitem]. Qed.
  Lemma fin_exists_aliases d ks : exists_by_aliases P d ks <> NoFuel.
  Proof. induction ks; cbn [exists_by_aliases]; fin; apply fin_py_in. Qed.
  Lemma fin_generic mg tv va i : get_generic_arg mg tv va i <> NoFuel.
  Proof. unfold get_generic_arg. fin. Qed.
  Lemma fin_lits l : render_literal_de l <> NoFuel.
  Proof. unfold render_literal_de. fin. Qed.
  Lemma fin_ensure b : ensure b <> NoFuel.
  Proof. destruct b; discriminate. Qed.

  (** * Code generation returns or raises *)
  Lemma fin_key a : da_key W a <> NoFuel.
  Proof. unfold da_key. apply fin_bind; [apply fin_conv|intros; apply fin_lit]. Qed.
  Lemma fin_data a t : da_data W a t <> NoFuel.
  Proof. unfold da_data. fin. apply fin_key. Qed.
  Lemma fin_data_or a t : da_data_or W a t <> NoFuel.
  Proof. unfold da_data_or. fin; [apply fin_data|apply fin_key]. Qed.
  Lemma fin_alias_lits a n : alias_lits a n <> NoFuel.
  Proof. unfold alias_lits. apply fin_mapM. intros. apply fin_lit. Qed.
  Lemma fin_prim_data a t : prim_data W a t <> NoFuel.
  Proof. unfold prim_data. destruct (da_alias a); [apply fin_data|]. apply fin_bind; [apply fin_alias_lits|discriminate]. Qed.
  Lemma fin_and_all l : and_all l <> NoFuel.
  Proof.
    induction l as [|x [|y l] IH]; [discriminate|discriminate|].
    change (and_all (x :: y :: l)) with (e' <- and_all (y :: l) ;; Ok (EAnd x e')). fin.
  Qed.
  Lemma fin_de_default a t e : de_default P W a t e <> NoFuel.
  Proof.
    unfold de_default. destruct (da_default a && negb (da_iter a)); [|discriminate]. apply fin_bind; [|discriminate].
    destruct (da_flatten a).
    - destruct t; fin; try apply fin_lit; apply fin_and_all.
    - destruct (da_alias a); fin; [apply fin_key|apply fin_alias_lits].
  Qed.
  Lemma fin_de_class cfg a c : de_class W cfg a c <> NoFuel.
  Proof. unfold de_class. fin. apply fin_data. Qed.
  Lemma fin_de_prim cfg a t : de_prim W cfg a t <> NoFuel.
  Proof. unfold de_prim. apply fin_bind; [apply fin_prim_data|]. intros. fin. Qed.

  Ltac rend := repeat first
    [ apply fin_data | apply fin_data_or | apply fin_prim_data | apply fin_de_class | apply fin_de_prim | apply fin_de_default
    | apply fin_key | apply fin_lit | apply fin_and_all | apply fin_alias_lits | progress fin ].

  Lemma fin_de_ty cfg t : forall a, de_ty P W cfg a t <> NoFuel.
  Proof.
    assert (STEP : forall t, (forall a, de_gcore P W cfg a t <> NoFuel) -> forall a, de_ty P W cfg a t <> NoFuel).
    { intros t0 H a. rewrite de_ty_eq. assert (R : de_rest P W cfg a t0 <> NoFuel).
      { unfold de_rest. destruct t0; try (apply fin_bind; [apply H|intros; apply fin_de_default]).
        unfold de_gen. cbv zeta. apply fin_bind; [|intros; apply fin_bind; intros; apply fin_de_default].
        destruct (find_de _ _ _), (da_deser a) as [[?|]|]; rend. }
      destruct (find_de _ _ _), (da_deser a) as [[?|]|]; auto; rend. }
    induction t using pytype_ind'; apply STEP; intros a; cbn [de_gcore]; try (rend; fail).
    - destruct (is_opt (TUnion l)).
      + destruct l as [|x l]; [discriminate|]. inversion H as [|? ? Hx Hl]; subst. apply fin_bind.
        * destruct (da_iter a || da_inner a); [rend|]. destruct (da_flatten a); [destruct x; rend|]. destruct (da_alias a); rend.
        * intros. apply fin_bind; [apply Hx|discriminate].
      + rend.
    - apply fin_bind; [apply IHt|intros; rend].
    - destruct k; (apply fin_bind; [apply IHt|intros; rend]).
    - apply fin_bind; [apply IHt|intros; rend].
    - apply fin_bind; [apply IHt|intros; rend].
    - apply fin_bind; [destruct (is_num_key t1); [discriminate|apply IHt1]|]. intros. apply fin_bind; [apply IHt2|intros; rend].
    - destruct l as [|x l]; [discriminate|]. apply fin_bind; [rend|]. intros e _. apply fin_bind; [|discriminate].
      generalize 0. induction H as [|y r Hy Hr IH]; intros n; cbn [mapMi_from]; [discriminate|]. apply fin_bind; [apply Hy|]. intros. apply fin_bind; [apply IH|discriminate].
    - apply fin_bind; [rend|]. intros e _. apply fin_bind; [apply IHt|discriminate].
    - apply IHt.
  Qed.
  Lemma fin_de_render cfg a t : de_render P W cfg a t <> NoFuel.
  Proof.
    unfold de_render. cbv zeta. destruct (d_legacy cfg), (da_deser a), (find_de P (d_class_de cfg) t); try apply fin_de_ty.
    destruct t; (apply fin_bind; [apply fin_de_ty|intros; apply fin_bind; [apply fin_data_or|discriminate]]).
  Qed.
  Lemma fin_known n : forall d, known_fields P W n d <> NoFuel.
  Proof.
    induction n as [|n IH]; intros d; cbn [known_fields]; (destruct (c_transparent d); [discriminate|]); (apply fin_bind; [|discriminate]); apply fin_mapM; intros f _;
      (destruct (is_flat_dict_field f); [discriminate|]); (destruct (flat_child f); [|apply fin_bind; [apply fin_conv|discriminate]]); fin. apply IH.
  Qed.
  Lemma fin_defields d : total_reader d -> defields d <> NoFuel.
  Proof.
    intros T. unfold defields. apply fin_mapM. intros f I. apply fin_bind; [unfold check_field; fin|]. intros _ _. apply fin_bind; [|discriminate].
    unfold field_skip. cbv zeta. apply fin_bind.
    - destruct (flag (f_skip_if_default f) _); [|discriminate]. destruct (f_default f) as [[v|r]|] eqn:D; try discriminate. apply fin_bind; [exact (rd_factory d T f r I D)|discriminate].
    - intros x _. fin.
  Qed.
  Lemma fin_mapMi {A B} (f : nat -> A -> res B) l : (forall i x, In x l -> f i x <> NoFuel) -> forall i, mapMi_from f i l <> NoFuel.
  Proof.
    induction l as [|x l IH]; intros H i; cbn [mapMi_from]; [discriminate|]. apply fin_bind; [apply H; now left|]. intros a _.
    apply fin_bind; [apply IH; intros; apply H; now right|discriminate].
  Qed.
  Lemma fin_render_de d : total_reader d -> render_de P W d true <> NoFuel.
  Proof.
    intros T. unfold render_de, render_from_dict. apply fin_bind; [now apply fin_defields|]. intros all _. cbv zeta.
    destruct (c_transparent d).
    - destruct (filter renderable all); [discriminate|]. destruct (force_kw false all); [discriminate|]. apply fin_bind; [apply fin_de_render|discriminate].
    - apply fin_bind; [apply fin_known|]. intros known _. apply fin_bind; [|intros; fin]. apply fin_mapMi. intros i f _.
      destruct (is_flat_dict_field f); [discriminate|]. apply fin_bind.
      + destruct (flat_child f); [|discriminate]. destruct (get_class P s); [|discriminate]. apply fin_bind; [apply fin_known|discriminate].
      + intros pv _. apply fin_bind; [apply fin_de_render|]. intros e _. destruct (da_default _); [discriminate|]. apply fin_bind; [apply fin_key|discriminate].
  Qed.
  Lemma fin_render_union_de d l : render_union_de P W d l <> NoFuel.
  Proof. apply fin_mapM. intros t _. apply fin_bind; [apply fin_de_ty|]. intros e _. fin. Qed.

  (** * The weight of data *)
  Fixpoint wgt (v : pyval) : nat :=
    match v with
    | VSeq _ l => 1 + list_sum (map wgt l)
    | VMap k l => match k with MDefault _ => 3 | _ => 1 end + list_sum (map (fun kv => match kv with (a, b) => wgt a + wgt b end) l)
    | _ => 0
    end.
  Lemma sum_In {A} (f : A -> nat) l x : In x l -> f x <= list_sum (map f l).
  Proof. induction l as [|y l IH]; intros []; cbn [map list_sum fold_right]; [subst; lia|]. specialize (IH H). unfold list_sum in *. lia. Qed.
  Lemma wgt_seq k l x : In x l -> wgt x < wgt (VSeq k l).
  Proof. intros I. cbn [wgt]. pose proof (sum_In wgt l x I). lia. Qed.
  Lemma wgt_map k l a b : In (a, b) l -> wgt a + wgt b < wgt (VMap k l).
  Proof. intros I. cbn [wgt]. pose proof (sum_In (fun kv => match kv with (a, b) => wgt a + wgt b end) l _ I). cbv beta iota in H. destruct k; lia. Qed.
  Lemma wgt_pos_map k l : 0 < wgt (VMap k l).
  Proof. cbn [wgt]. destruct k; lia. Qed.
  Lemma wgt_chars s x : In x (chars s) -> wgt x = 0.
  Proof. intros I. unfold chars in I. apply in_map_iff in I as (a & <- & _). reflexivity. Qed.
  Lemma wgt_iter v l x : iter P v = Ok l -> In x l -> wgt x <= wgt v.
  Proof.
    intros H I.
    assert (T : forall r, match r with Some (SS s) => Ok (chars s) | _ => Raise XType end = Ok l -> wgt x <= wgt v).
    { intros [[]|] E; try discriminate. injection E as <-. apply wgt_chars in I. lia. }
    destruct v; cbn [iter] in H; try (now apply T in H); injection H as <-.
    - apply Nat.lt_le_incl. now apply wgt_seq.
    - apply in_map_iff in I as ([a b] & <- & I). pose proof (wgt_map k _ _ _ I). cbn [fst]. lia.
  Qed.
  Lemma wgt_items v l a b : items v = Ok l -> In (a, b) l -> wgt a < wgt v /\ wgt b < wgt v.
  Proof. destruct v; try discriminate. intros E I. injection E as ->. pose proof (wgt_map k _ _ _ I). lia. Qed.
  Lemma wgt_factory f v : factory_value f = Ok v -> wgt v <= 1.
  Proof.
    unfold factory_value. intros H.
    repeat (match type of H with (if ?b then _ else _) = _ => destruct b; [injection H as <-; cbn; lia|] end). discriminate.
  Qed.
  Lemma wgt_missing m l r x : match r with Some x => Ok x | None => match m with MDict => Raise XKey | MCounter => Ok (VInt 0) | MDefault f => factory_value f end end = Ok x ->
    (forall y, r = Some y -> exists a, In (a, y) l) -> wgt x < wgt (VMap m l).
  Proof.
    intros H D. destruct r as [y|].
    - injection H as <-. destruct (D y eq_refl) as [a I]. pose proof (wgt_map m _ _ _ I). lia.
    - destruct m; [discriminate|injection H as <-; apply wgt_pos_map|]. apply wgt_factory in H. cbn [wgt]. lia.
  Qed.
  Lemma wgt_getitem v k x : getitem P v k = Ok x -> wgt x < wgt v.
  Proof. destruct v; try discriminate. cbn [getitem]. intros H. eapply wgt_missing; [exact H|]. intros y. apply dget_In. Qed.
  Lemma wgt_getopt v k x : getopt P v k = Ok x -> wgt x < wgt v.
  Proof.
    destruct v; try discriminate. cbn [getopt]. intros H. destruct (dget _ _ _) as [y|] eqn:E; injection H as <-; [|apply wgt_pos_map].
    apply dget_In in E as [a I]. pose proof (wgt_map k0 _ _ _ I). lia.
  Qed.
  Lemma wgt_getidx v n x : getidx P v n = Ok x -> wgt x <= wgt v.
  Proof.
    assert (T : forall r, match r with Some (SS s) => of_option XIndex (nth_opt (chars s) n) | _ => Raise XType end = Ok x -> wgt x <= wgt v).
    { intros [[]|] E; try discriminate. destruct (nth_opt (chars s) n) as [y|] eqn:N; [|discriminate]. injection E as <-. apply nth_opt_In, wgt_chars in N. lia. }
    intros H. destruct v; cbn [getidx] in H; try (now apply T in H).
    - destruct k; try (now apply T in H); (destruct (nth_opt l n) as [y|] eqn:N; [|discriminate]; injection H as <-; apply nth_opt_In in N; apply Nat.lt_le_incl; now apply wgt_seq).
    - apply Nat.lt_le_incl. eapply wgt_missing; [exact H|]. intros y. apply dget_In.
  Qed.

  (** * The code of annotations *)

  (** Code that takes a part out of the data: [root] is the variable that must not be taken itself. *)
  Section Code.
    Variables (root : string) (own : option string) (HC : string -> Prop) (HU : list pytype -> Prop).
    Hypothesis RV : "v" <> root.
    Hypothesis RK : "k" <> root.
    Fixpoint part_of (e : expr) : Prop :=
      match e with
      | EVar x => x <> root
      | EKey e _ | EGet e _ => match e with EVar _ => True | _ => part_of e end
      | EIdx e _ => part_of e
      | _ => False
      end.
    (** Functions are called on parts of the data only. *)
    Fixpoint reader (e : expr) : Prop :=
      match e with
      | EToObj _ | ESeFn _ _ | EUnionSe _ _ | EClsSer _ _ | ELegacySe _ _ _ | EEnumVal _ _ => False
      | EVar _ | ENone | EReuse | EConv | EHasNum | EDefault _ | EAliases _ _ => True
      | EAttr e _ | EKey e _ | EIdx e _ | ESlice e _ | EGet e _ | ENotNone e | EIn _ e | EInAliases e _
      | EIsInst e _ | EBuiltin _ e | EDefDict _ e | ECoerce _ _ _ e | EDeEnum _ e | EStr e
      | EIso e | EFromIso _ e | ECtor _ e | EFn _ e | EClsDe _ _ e | ELitDe _ e | ENum e => reader e
      | EFromGen _ e named => reader e /\ named = true
      | EAnd a b | ELegacyDe _ a b => reader a /\ reader b
      | EIf a b c => reader a /\ reader b /\ reader c
      | EComp _ e it => reader e /\ part_of it
      | EMapComp a b it => reader a /\ reader b /\ part_of it
      | ETuple l => (fix go l := match l with [] => True | x :: r => reader x /\ go r end) l
      | EDeFn DtCls e named _ => part_of e /\ named = true /\ exists c, own = Some c /\ HC c
      | EDeFn (DtName t) e named _ => part_of e /\ named = true /\ exists c, t = TClass c /\ HC c
      | EUnionDe f e => part_of e /\ exists l, f = union_func_name P "union_de" l /\ HU l
      end.
    Lemma reader_tuple l : reader (ETuple l) <-> Forall reader l.
    Proof.
      cbn [reader]. induction l as [|x l IH]; [split; constructor|]. split.
      - intros [A B]. constructor; [exact A|now apply IH].
      - intros H. inversion H; subst. split; [assumption|now apply IH].
    Qed.
    Lemma part_reader e : part_of e -> reader e.
    Proof. induction e using expr_ind'; cbn [part_of reader]; auto; try contradiction; destruct e; auto; exact (fun _ => I). Qed.

    (** A field whose data is a part of [root] *)
    Record inarg (a : dearg) : Prop := {
      ia_var : if da_inner a then part_of (da_var a) else exists x, da_var a = EVar x;
      ia_flat : da_flatten a = true -> part_of (da_var a);
      ia_iter : da_iter a = false;
      ia_own : da_parent a = None \/ da_parent a = own
    }.
    Lemma ia_reader a : inarg a -> reader (da_var a).
    Proof. intros [V _ _ _]. destruct (da_inner a); [now apply part_reader|]. destruct V as [x ->]. exact I. Qed.
    Lemma ia_inner a n v : inarg a -> part_of v -> inarg (inner_arg a n v).
    Proof. intros [_ _ _ O] V. split; auto. Qed.
    Lemma ia_opt a : inarg a -> inarg (opt_inner a).
    Proof. intros [V F T O]. split; auto. Qed.
    Lemma ia_targs a l : inarg a -> inarg (with_targs a l).
    Proof. intros [V F T O]. split; auto. Qed.

    (** The classes and unions of a type are among those that may be called. *)
    Definition among (t : pytype) : Prop :=
      (forall c, sub_ty (TClass c) t \/ (exists a, sub_ty (TGen c a) t) -> HC c) /\ (forall l, sub_ty (TUnion l) t -> HU l).
    Lemma among_sub a t : sub_ty a t -> among t -> among a.
    Proof. intros S [A B]. split; [intros c [H|[l H]]; apply A; [left|right; exists l]|intros l H; apply B]; eapply sub_ty_trans; eauto. Qed.

    Lemma data_part a t e : inarg a -> da_data W a t = Ok e -> part_of e.
    Proof.
      intros [V _ T _] H. unfold da_data in H. destruct (da_inner a); [now injection H as <-|]. rewrite T in H. destruct V as [x V]. rewrite V in H.
      destruct (da_key W a); try discriminate. cbn [bind] in H. destruct (has_none_arg t); injection H as <-; exact I.
    Qed.
    Lemma data_reader a t e : inarg a -> da_data W a t = Ok e -> reader e.
    Proof. intros A H. eapply part_reader, data_part; eauto. Qed.
    Lemma prim_data_reader a t e : inarg a -> prim_data W a t = Ok e -> reader e.
    Proof. intros A H. unfold prim_data in H. destruct (da_alias a); [eauto using data_reader|]. inv_bind H. injection H as <-. exact I. Qed.
    Lemma data_or_reader a t e : inarg a -> da_data_or W a t = Ok e -> reader e.
    Proof.
      intros A H. unfold da_data_or in H. destruct (da_iter a); [eauto using data_reader|]. inv_bind H. injection H as <-. cbn [reader]. now apply ia_reader.
    Qed.
    Lemma and_all_reader l : forall e, Forall reader l -> and_all l = Ok e -> reader e.
    Proof.
      induction l as [|x [|y l] IH]; intros e D H; [discriminate| |].
      - cbn [and_all] in H. injection H as <-. now inversion D.
      - change (and_all (x :: y :: l)) with (e' <- and_all (y :: l) ;; Ok (EAnd x e')) in H. inv_bind H. injection H as <-.
        inversion D; subst. split; auto.
    Qed.
    Lemma mapM_reader {A} (f : A -> res expr) l : (forall x e, f x = Ok e -> reader e) -> forall es, mapM f l = Ok es -> Forall reader es.
    Proof.
      intros F. induction l as [|x l IH]; intros es H; cbn [mapM] in H; [injection H as <-; constructor|].
      destruct (f x) as [e| |] eqn:E; try discriminate. cbn [bind] in H. destruct (mapM f l) as [r| |]; try discriminate. injection H as <-. constructor; eauto.
    Qed.
    Lemma default_reader a t e e' : inarg a -> reader e -> de_default P W a t e = Ok e' -> reader e'.
    Proof.
      intros A D H. unfold de_default in H. destruct (da_default a && negb (da_iter a)); [|now injection H as <-].
      match type of H with bind ?m _ = _ => destruct m as [x| |] eqn:E; try discriminate end. cbn [bind] in H. injection H as <-.
      pose proof (ia_reader a A) as V.
      assert (X : reader x).
      { destruct (da_flatten a).
        - destruct t; try discriminate. destruct (get_class P c); [|discriminate]. inv_bind E. eapply and_all_reader; [|exact E].
          eapply mapM_reader; [|eassumption]. cbn beta. intros f e0 F. destruct (f_alias f); inv_bind F; injection F as <-; exact V.
        - destruct (da_alias a); inv_bind E; injection E as <-; exact V. }
      cbn [reader]. auto.
    Qed.
    Lemma class_reader cfg a c e : d_named cfg = true -> inarg a -> HC c -> de_class W cfg a c = Ok e -> reader e.
    Proof.
      intros NM A C H. unfold de_class in H. match type of H with bind ?m _ = _ => destruct m as [v| |] eqn:E; try discriminate end. cbn [bind] in H. injection H as <-.
      assert (V : part_of v).
      { destruct (da_flatten a) eqn:FL; [|eauto using data_part]. rewrite (ia_iter a A) in E. injection E as <-. now apply (ia_flat a A). }
      destruct (ia_own a A) as [O|O]; rewrite O.
      - cbn [reader]. eauto 6.
      - destruct own as [p|] eqn:OW; [|cbn [reader]; eauto 6]. destruct (String.eqb_spec p c) as [->|]; cbn [reader]; eauto 6.
    Qed.
    Lemma prim_reader cfg a t e : inarg a -> de_prim W cfg a t = Ok e -> reader e.
    Proof.
      intros A H. unfold de_prim in H. inv_bind H. match goal with X : prim_data _ _ _ = Ok _ |- _ => apply prim_data_reader in X; [|assumption]; rename X into D end.
      destruct (d_suppress cfg && negb (is_prim_sub t)), (is_float_class t); injection H as <-; cbn [reader]; auto.
    Qed.

    Ltac dp := match goal with A : inarg ?a, X : da_data _ ?a _ = Ok ?y |- _ => exact (data_part _ _ _ A X) end.
    Ltac inn := match goal with A : inarg ?a |- inarg (inner_arg ?a _ _) => apply ia_inner; [exact A|]; first [exact RV|exact RK|cbn [part_of]; dp] end.
    Lemma de_ty_reader cfg t : d_named cfg = true -> forall a e, inarg a -> among t -> de_ty P W cfg a t = Ok e -> reader e.
    Proof.
      intros NM.
      assert (STEP : forall t, (forall a e, inarg a -> among t -> de_gcore P W cfg a t = Ok e -> reader e) ->
        forall a e, inarg a -> among t -> de_ty P W cfg a t = Ok e -> reader e).
      { intros t0 HCo a e A M H. rewrite de_ty_eq in H.
        assert (R : de_rest P W cfg a t0 = Ok e -> reader e).
        { clear H. intros H. unfold de_rest in H. destruct t0; try discriminate H; try (
            match type of H with bind ?m _ = _ => destruct m as [x| |] eqn:E; try discriminate end; cbn [bind] in H;
            eapply default_reader; [exact A| |exact H]; eapply HCo; [exact A|exact M|exact E]).
          unfold de_gen in H. cbv zeta in H.
          match type of H with bind ?m _ = _ => destruct m as [x| |] eqn:E; try discriminate end. cbn [bind] in H.
          assert (X : reader x).
          { assert (C : HC c) by (apply (proj1 M); right; exists args; constructor).
            destruct (find_de _ _ _), (da_deser a) as [[f|]|]; try (eapply class_reader; [exact NM| |exact C|exact E]; now apply ia_targs).
            inv_bind E. injection E as <-. cbn [reader]. eapply data_reader; [|eassumption]. now apply ia_targs. }
          match type of H with bind ?m _ = _ => destruct m as [y| |] eqn:EY; try discriminate end. cbn [bind] in H.
          refine (default_reader _ _ _ _ (ia_targs _ _ A) _ H). refine (default_reader _ _ _ _ (ia_targs _ _ A) X EY). }
        destruct (find_de _ _ _), (da_deser a) as [[f|]|]; auto; inv_bind H; (eapply default_reader; [exact A| |exact H]); cbn [reader]; eapply data_reader; eassumption. }
      induction t using pytype_ind'; apply STEP; intros a ex A M HE; cbn [de_gcore] in HE; try discriminate HE;
        try (eapply prim_reader; eassumption).
      - injection HE as <-. exact I.
      - eapply data_reader; eassumption.
      - destruct (is_opt (TUnion l)) eqn:O.
        + destruct l as [|x l]; [discriminate|]. inversion H as [|? ? Hx Hl]; subst. clear H.
          match type of HE with bind ?m _ = _ => destruct m as [y| |] eqn:EY; try discriminate end. cbn [bind] in HE. inv_bind HE. injection HE as <-.
          assert (DY : reader y).
          { destruct (da_iter a || da_inner a).
            - inv_bind EY. injection EY as <-. cbn [reader]. eapply data_reader; eassumption.
            - destruct (da_flatten a).
              + destruct x; try discriminate. destruct (get_class P c); [|discriminate]. inv_bind EY. eapply and_all_reader; [|exact EY].
                eapply mapM_reader; [|eassumption]. cbn beta. intros f e0 F. inv_bind F. injection F as <-. now apply ia_reader.
              + inv_bind EY. destruct (da_alias a); [injection EY as <-; now apply ia_reader|]. inv_bind EY. injection EY as <-. exact I. }
          cbn [reader]. split; [exact DY|]. split; [|exact I]. eapply Hx; [apply ia_opt, A| |eassumption]. eapply among_sub; [|exact M]. econstructor; [now left|constructor].
        + inv_bind HE. injection HE as <-. cbn [reader]. split; [dp|]. exists l. split; [reflexivity|]. apply (proj2 M). constructor.
      - inv_bind HE. inv_bind HE. injection HE as <-. cbn [reader]. split; [|dp]. eapply IHt; [| |eassumption]; [inn|eapply among_sub; [|exact M]; repeat constructor].
      - destruct k; inv_bind HE; inv_bind HE; injection HE as <-; cbn [reader]; (split; [|dp]); (eapply IHt; [| |eassumption]; [inn|eapply among_sub; [|exact M]; repeat constructor]).
      - inv_bind HE. inv_bind HE. injection HE as <-. cbn [reader]. split; [|dp]. eapply IHt; [| |eassumption]; [inn|eapply among_sub; [|exact M]; repeat constructor].
      - inv_bind HE. inv_bind HE. injection HE as <-. cbn [reader]. split; [|split; [exact I|dp]]. eapply IHt; [| |eassumption]; [inn|eapply among_sub; [|exact M]; repeat constructor].
      - match type of HE with bind ?m _ = _ => destruct m as [x| |] eqn:EX; try discriminate end. cbn [bind] in HE.
        assert (DX : reader x). { destruct (is_num_key t1); [injection EX as <-; exact I|]. eapply IHt1; [| |eassumption]; [inn|eapply among_sub; [|exact M]; apply sub_dict_k; constructor]. }
        inv_bind HE. inv_bind HE. match goal with X : de_ty _ _ _ _ t2 = Ok ?y |- _ => assert (DY : reader y) by (eapply IHt2; [| |eassumption]; [inn|eapply among_sub; [|exact M]; apply sub_dict_v; constructor]) end.
        assert (DZ := data_part a). destruct k; injection HE as <-; cbn [reader]; (split; [exact DX|]); (split; [exact DY|dp]).
      - destruct l as [|x l]; [discriminate|]. inv_bind HE. match goal with X : da_data _ _ _ = Ok ?y |- _ => assert (DZ : part_of y) by dp; clear X end.
        match type of HE with bind ?m _ = _ => destruct m as [es| |] eqn:EX; try discriminate end. cbn [bind] in HE. injection HE as <-. apply reader_tuple.
        assert (M' : forall y, In y (x :: l) -> among y) by (intros y Iy; eapply among_sub; [|exact M]; econstructor; [exact Iy|constructor]). clear M.
        revert es EX. generalize 0. induction H as [|y r Hy Hr IH]; intros n es EX; cbn [mapMi_from] in EX; [injection EX as <-; constructor|].
        inv_bind EX. inv_bind EX. injection EX as <-. constructor.
        + eapply Hy; [| |eassumption]; [|apply M'; now left]. apply ia_inner; [exact A|exact DZ].
        + eapply IH; [intros; apply M'; now right|eassumption].
      - inv_bind HE. inv_bind HE. injection HE as <-. cbn [reader]. split; [|dp]. eapply IHt; [| |eassumption]; [inn|eapply among_sub; [|exact M]; repeat constructor].
      - destruct b as [k|k|k| | |]; try (destruct k; try discriminate); try (eapply data_reader; eassumption);
          inv_bind HE; injection HE as <-; cbn [reader]; eapply data_reader; eassumption.
      - inv_bind HE. injection HE as <-. cbn [reader]. eapply prim_data_reader; eassumption.
      - eapply class_reader; [exact NM|exact A| |eassumption]. apply (proj1 M). left. constructor.
      - destruct (c_tvars (d_cls cfg)); [|discriminate]. inv_bind HE. injection HE as <-. cbn [reader]. split; [eapply data_reader; eassumption|]. now rewrite (ia_iter a A).
      - inv_bind HE. injection HE as <-. cbn [reader]. eapply data_reader; eassumption.
      - inv_bind HE. injection HE as <-. cbn [reader]. match goal with X : da_data _ _ _ = Ok ?y |- _ => apply data_reader in X; [|exact A] end. auto.
      - inv_bind HE. injection HE as <-. cbn [reader]. match goal with X : da_data _ _ _ = Ok ?y |- _ => apply data_reader in X; [|exact A] end. auto.
      - eapply IHt; [exact A| |eassumption]. eapply among_sub; [|exact M]. repeat constructor.
    Qed.
    Lemma render_reader cfg a t e : d_named cfg = true -> inarg a -> among t -> de_render P W cfg a t = Ok e -> reader e.
    Proof.
      intros NM A M H. unfold de_render in H.
      assert (N : de_ty P W cfg a t = Ok e -> reader e) by (now apply de_ty_reader).
      destruct (d_legacy cfg); [|auto]. destruct (da_deser a); [auto|]. destruct (find_de _ _ _); [auto|].
      assert (G : forall a' t', inarg a' -> among t' -> (e0 <- de_ty P W {| d_named := d_named cfg; d_cls := d_cls cfg; d_legacy := false;
                       d_suppress := d_suppress cfg; d_class_de := None; d_cname := "None" |} a' t' ;; dat <- da_data_or W a' t' ;; Ok (ELegacyDe t' dat e0)) = Ok e -> reader e).
      { intros a' t' A' M' E. inv_bind E. inv_bind E. injection E as <-. cbn [reader]. split; [eapply data_or_reader; eassumption|].
        eapply de_ty_reader; [|exact A'|exact M'|eassumption]. exact NM. }
      destruct t; try (now apply (G _ _ A M) in H). apply G in H; [exact H|now apply ia_targs|].
      split; [intros c' [S|[l S]]; inversion S; subst; apply (proj1 M); right; exists args; constructor|intros l S; inversion S].
    Qed.
  End Code.

  (** * Evaluation *)
  Lemma ev_once (Q : nat -> Prop) : ev Q -> exists n, Q n.
  Proof. intros [N H]. exists N. now apply H. Qed.
  Lemma set_map {A B} (m : nat -> res A) (f : res A -> res B) : settles m -> (forall r, r <> NoFuel -> f r <> NoFuel) -> settles (fun n => f (m n)).
  Proof. intros (r & H & E) F. exists (f r). split; [now apply F|]. eapply ev_mono; [exact E|]. cbv beta. intros n ->. reflexivity. Qed.
  Lemma same_class d c c' : resolve P (de_globals P d) (TClass c) = Ok (TClass c') -> typename P (TClass c') = typename P (TClass c).
  Proof.
    intros H. cbn [resolve] in H. unfold lookup_name in H. destruct (slookup _ _) as [u|] eqn:E; [|discriminate]. injection H as ->.
    unfold de_globals in E.
    rewrite fold_left_ext with (g := fun (g : list (string * pytype)) (t : pytype) =>
      if is_primitive P t && negb (is_enum t) && negb (is_primitive_subclass P t) then g
      else (typename P t, match t with TGen c _ => TClass c | _ => t end) :: g) in E
      by (intros a u; destruct (is_primitive P u && _ && _); [reflexivity|]; now destruct u).
    rewrite (globals_lookup P (fun t => is_primitive P t && negb (is_enum t) && negb (is_primitive_subclass P t)) (fun t => match t with TGen c _ => TClass c | _ => t end)) in E.
    destruct (find _ _) as [u|] eqn:F; [|discriminate]. injection E as E. apply find_some in F as [_ F].
    apply andb_prop in F as [_ F2]. apply String.eqb_eq in F2. rewrite <- F2. destruct u; try discriminate E; now injection E as ->.
  Qed.

  Section Eval.
    Variables (root : string) (own : option string) (HC : string -> Prop) (HU : list pytype -> Prop) (N : nat) (cx : ctx).
    Hypothesis RV : "v" <> root.
    Hypothesis RK : "k" <> root.
    Hypothesis XG : x_g cx = de_globals P (x_cls cx).
    Hypothesis OWN : forall c, own = Some c -> get_class P c = Some (x_cls cx).
    Hypothesis CT : total_reader (x_cls cx).
    Hypothesis FT : forall f g, fn_lookup cx f = Some (GFun g) -> total g.
    Hypothesis DT : forall h, x_dn cx = Some h -> total h.
    Hypothesis CALL : forall c c' d v ta, HC c -> get_class P c' = Some d -> typename P (TClass c') = typename P (TClass c) -> wgt v < N ->
      settles (fun n => run n (QDe d v true (Some (x_reuse cx)) (x_dn cx) (x_mg cx) (x_mgtv cx) ta)).
    Hypothesis UCALL : forall l v, HU l -> wgt v < N -> settles (fun n => run n (QUnionDe (x_cls cx) (union_func_name P "union_de" l) v (x_reuse cx) (x_dn cx))).
    Hypothesis GCALL : forall i t v, get_generic_arg (x_mg cx) (x_mgtv cx) (x_vta cx) i = Ok t ->
      settles (fun n => run n (QFromObj (TagExternal, t) v true (Some (x_reuse cx)) (x_dn cx))).

    Definition bounded (rho : env) : Prop := forall x v, slookup x rho = Some v -> wgt v <= N /\ (x <> root -> wgt v < N).
    Lemma bounded_cons x v rho : wgt v < N -> bounded rho -> bounded ((x, v) :: rho).
    Proof.
      intros L B y w H. cbn [slookup] in H. destruct (String.eqb x y); [injection H as <-; lia|now apply B].
    Qed.
    Lemma part_wgt : forall e call rho v, bounded rho -> part_of root e -> eval P W call cx rho e = Ok v -> wgt v < N.
    Proof.
      assert (KEY : forall (f : pyval -> res pyval) e call rho v, (forall w x, f w = Ok x -> wgt x < wgt w) ->
        (forall call rho v, bounded rho -> part_of root e -> eval P W call cx rho e = Ok v -> wgt v < N) ->
        bounded rho -> match e with EVar _ => True | _ => part_of root e end -> (w <- eval P W call cx rho e ;; f w) = Ok v -> wgt v < N).
      { intros f e call rho v F IH B H E. destruct (eval P W call cx rho e) as [w| |] eqn:EW; try discriminate. cbn [bind] in E. apply F in E.
        assert (wgt w <= N); [|lia]. destruct e; try (apply Nat.lt_le_incl; eapply IH; eauto; fail).
        cbn [eval] in EW. destruct (slookup x rho) as [y|] eqn:L; [|discriminate]. injection EW as <-. now apply (B x). }
      induction e using expr_ind'; intros call rho w B HP E; cbn [part_of] in HP; try contradiction; cbn [eval] in E.
      - destruct (slookup x rho) as [y|] eqn:L; [|discriminate]. injection E as <-. now apply (B x).
      - eapply (KEY (fun w => getitem P w a) e); eauto. intros. eapply wgt_getitem; eauto.
      - destruct (eval P W call cx rho e) as [y| |] eqn:EY; try discriminate. cbn [bind] in E. apply wgt_getidx in E. assert (wgt y < N) by eauto. lia.
      - eapply (KEY (fun w => getopt P w a) e); eauto. intros. eapply wgt_getopt; eauto.
    Qed.

    Lemma fin_des n t v : (s <- of_option XIndex (nth_opt (class_des P (c_class_de (x_cls cx))) n) ;; cd_fn s t v) <> NoFuel.
    Proof.
      destruct (nth_opt _ n) as [s|] eqn:E; [|discriminate]. cbn [of_option bind]. apply nth_opt_In in E. unfold class_des in E. apply in_app_or in E as [I|I].
      - destruct TR as (_ & _ & D & _). now apply D.
      - destruct (c_class_de (x_cls cx)) eqn:E; [|contradiction]. destruct I as [<-|[]]. now apply (rd_class_de _ CT).
    Qed.
    Lemma fin_default f : default_of cx f <> NoFuel.
    Proof.
      unfold default_of. destruct (find _ _) as [fd|] eqn:F; [|discriminate]. apply find_some in F as [F _]. unfold default_value.
      destruct (f_default fd) as [[v|r]|] eqn:D; [discriminate|now apply (rd_factory _ CT fd r)|discriminate].
    Qed.

    Ltac sb := apply set_bind; [|intros ? ?].
    Ltac sp := apply set_bind_pure; [|intros ? _].
    Ltac sr := apply set_ret.
    Lemma eval_settles : forall e rho, bounded rho -> reader root own HC HU e -> settles (fun n => eval P W (run n) cx rho e).
    Proof.
      assert (PT : forall e rho (n : nat) v, bounded rho -> part_of root e -> ev (fun n => eval P W (run n) cx rho e = Ok v) -> wgt v < N)
        by (intros e0 rho _ v B H E; apply ev_once in E as [n E]; eapply part_wgt; eauto).
      assert (PS : forall e rho, (forall rho, bounded rho -> reader root own HC HU e -> settles (fun n => eval P W (run n) cx rho e)) -> bounded rho -> part_of root e -> settles (fun n => eval P W (run n) cx rho e))
        by (intros e0 rho IH B H; apply IH; [exact B|now apply part_reader]).
      induction e using expr_ind'; intros rho B D; cbn [reader] in D; try contradiction; cbn [eval];
        try (sb; [solve [auto]|]);
        try (sr; first [discriminate|apply fin_getattr|apply fin_getitem|apply fin_getidx|apply fin_slice|apply fin_getopt|apply fin_of_option|apply fin_default]; fail).
      - sp; [apply fin_of_option|]. sr. apply fin_get_aliases.
      - destruct D as (D1 & D2 & D3). sb; [now apply IHe1|]. destruct (truthy _ _); [now apply IHe2|now apply IHe3].
      - sp; [apply fin_py_in|]. now sr.
      - sp; [apply fin_exists_aliases|]. now sr.
      - destruct D as [D1 D2]. sb; [now apply IHe1|]. destruct (truthy _ _); [now apply IHe2|now sr].
      - sp; [apply fin_resolve|]. now sr.
      - destruct D as [D1 D2]. apply set_bind; [now apply PS|]. intros v V. apply set_bind_pure; [apply fin_iter|]. intros l L. sb; [|sr; apply fin_mk_seq].
        apply set_mapM. intros x I. apply IHe1; [|exact D1]. apply bounded_cons; [|exact B]. pose proof (wgt_iter _ _ _ L I). assert (wgt v < N) by (eapply PT; eauto; exact 0). lia.
      - destruct D as (D1 & D2 & D3). apply set_bind; [now apply PS|]. intros v V. apply set_bind_pure; [apply fin_items|]. intros l L.
        sb; [|sp; [apply fin_mk_map|now sr]]. apply set_mapM. intros [a b] I. cbv zeta. cbn [fst snd].
        destruct (wgt_items _ _ _ _ L I) as [WA WB]. assert (wgt v < N) by (eapply PT; eauto; exact 0).
        assert (B' : bounded (("k", a) :: ("v", b) :: rho)) by (apply bounded_cons; [lia|]; apply bounded_cons; [lia|exact B]).
        sb; [now apply IHe1|]. sb; [now apply IHe2|]. sr. destruct (hashable P a0); discriminate.
      - sb; [|now sr]. apply set_mapM. intros x I. rewrite Forall_forall in H. apply H; [exact I|exact B|]. apply (reader_tuple root own HC HU l) in D. rewrite Forall_forall in D. auto.
      - sr. destruct b; try (apply fin_bind; [apply fin_iter|]; intros); try discriminate; try apply fin_mk_seq; [destruct a; discriminate|apply fin_mk_counter].
      - destruct (_ || _); [|now apply (set_ret (Raise XName))]. sb; [auto|]. sr. destruct a; discriminate.
      - sp; [apply fin_resolve|]. sb; [auto|]. sr. now apply rfin_coerce.
      - sp; [apply fin_resolve|]. sb; [auto|]. sr. destruct a; try discriminate. now apply rfin_de_enum.
      - sr. destruct a; discriminate.
      - sp; [apply fin_resolve|]. sb; [auto|]. sr. destruct a; try discriminate. destruct TR as (_ & T & _). apply T.
      - sp; [apply fin_resolve|]. sb; [auto|]. sr. now apply rfin_call_ctor.
      - destruct (fn_lookup cx f) as [[s|g]|] eqn:F; [now apply (set_ret (Raise XType))| |now apply (set_ret (Raise XName))]. sb; [auto|]. sr. now apply (FT f g).
      - sp; [apply fin_resolve|]. sb; [auto|]. sr. apply fin_des.
      - destruct D as [D1 D2]. sp; [apply fin_resolve|]. sb; [now apply IHe1|].
        destruct (c_deserializer (x_cls cx)) as [g|] eqn:L; [|now apply (set_ret (Raise XName))]. pose proof (rd_deserializer _ CT g a L a0) as G.
        destruct (g a a0) as [r|x|] eqn:E; [now apply (set_ret (Ok r))| |easy]. destruct x; try (now apply IHe2); now apply (set_ret (Raise _)).
      - destruct D as [D ->]. apply set_bind_pure; [apply fin_generic|]. intros t G. sb; [auto|]. eapply GCALL; eauto.
      - destruct t as [|t].
        + destruct D as (D1 & -> & c & O & C). cbn [bind]. apply set_bind; [now apply PS|]. intros v V. eapply CALL; [exact C|exact (OWN _ O)|reflexivity|eapply PT; eauto; exact 0].
        + destruct D as (D1 & -> & c & -> & C). rewrite XG. apply set_bind_pure.
          * apply fin_bind; [apply fin_resolve|]. intros t _. destruct t; try discriminate. apply fin_of_option.
          * intros d R. destruct (resolve P (de_globals P (x_cls cx)) (TClass c)) as [t'| |] eqn:R1; try discriminate. cbn [bind] in R.
            destruct t'; try discriminate. destruct (get_class P c0) as [d0|] eqn:G; [|discriminate]. injection R as ->.
            apply set_bind; [now apply PS|]. intros v V. eapply CALL; [exact C|exact G|exact (same_class _ _ _ R1)|eapply PT; eauto; exact 0].
      - destruct D as (D1 & l & -> & U). apply set_bind; [now apply PS|]. intros v V. apply UCALL; [exact U|]. eapply PT; eauto; exact 0.
      - destruct (literal_args P cx f); [|now apply (set_ret (Raise XKey))]. sp; [apply fin_lits|]. sb; [auto|]. sr. destruct (existsb _ _); discriminate.
      - destruct (x_dn cx) as [h|] eqn:X; [|now apply (set_ret (Raise XType))]. sb; [auto|]. sr. now apply DT.
    Qed.
  End Eval.

  (** * The functions of a class *)
  Lemma fin_ctor d vals args cx : total_reader d -> x_cls cx = d -> run_ctor P W cx vals args <> NoFuel.
  Proof.
    intros T <-. unfold run_ctor. destruct (split_args vals args) as [pos kws]. unfold construct_user. apply fin_catch; [|discriminate].
    unfold construct. destruct (bind_pos _ _) as [b|]; [|discriminate]. destruct (_ && _); [discriminate|]. destruct (no_dup_args _ _ _); [|discriminate].
    apply fin_bind; [|intros; apply (rd_post _ T)]. unfold init_fields. apply fin_bind; [|discriminate]. apply fin_mapM. intros f I. unfold default_value.
    pose proof (rd_factory _ T f) as R.
    destruct (f_init f); [destruct (slookup _ _); [discriminate|]|]; (destruct (f_default f) as [[v|r]|]; try discriminate; apply fin_bind; [|discriminate]); (discriminate || now apply R).
  Qed.
  Lemma fin_project p v : project_flat P p v <> NoFuel.
  Proof. unfold project_flat. destruct (truthy _ _); [|discriminate]. apply fin_bind; [apply fin_items|discriminate]. Qed.
  Lemma fin_items_or v : items_or_empty P v <> NoFuel.
  Proof. unfold items_or_empty. destruct (truthy _ _); [apply fin_items|discriminate]. Qed.
  Lemma fns_total d f g : total_reader d -> slookup f (rev (de_fns d)) = Some (GFun g) -> total g.
  Proof.
    intros T H. apply slookup_In, in_rev in H. unfold de_fns in H. apply in_concat in H as (l & I & H). apply in_map_iff in I as (fd & <- & I).
    destruct (f_deserializer fd) as [[|h]|] eqn:E; [| |destruct H]; destruct H as [H|[]]; injection H as _ <-; [discriminate|]. now apply (rd_field _ T fd).
  Qed.

  Variable dn : option numhook.
  Hypothesis DT : forall h, dn = Some h -> total h.

  (** The deserializer of a class ends on [v]. *)
  Definition DeEnds (mg : option pytype) (d : classdef) (v : pyval) : Prop := forall ro mgtv vta, settles (fun n => run n (QDe d v true ro dn mg mgtv vta)).
  (** from_obj for the type [t] ends. *)
  Definition ObjEnds (t : pytype) : Prop := forall tg o ro, settles (fun n => run n (QFromObj (tg, t) o true ro dn)).
  Definition args_end (mg : option pytype) : Prop := match mg with Some (TGen _ args) => Forall ObjEnds args | _ => True end.

  Lemma any_ends : ObjEnds TAny.
  Proof.
    intros tg o ro. apply set_run. cbn [step unalias is_union is_opt andb]. destruct (type_is o TAny); [now apply set_ret|]. apply set_catch.
    - unfold from_obj_body. destruct (first_de P TAny) as [s0|] eqn:F; [|now apply set_ret]. apply set_ret. unfold first_de in F. apply find_some in F as [F _]. now apply TR.
    - intros []; now apply set_ret.
  Qed.
  Lemma generic_ends mg mgtv vta i t : args_end mg -> get_generic_arg mg mgtv vta i = Ok t -> ObjEnds t.
  Proof.
    intros A H. unfold get_generic_arg in H.
    assert (D : Ok TAny = Ok t -> ObjEnds t) by (intros E; injection E as <-; exact any_ends).
    destruct mg as [[]|]; try (now apply D). destruct mgtv as [tv|]; [|now apply D]. destruct vta as [va|]; [|now apply D].
    destruct (Nat.eqb _ _); [|discriminate].
    match type of H with bind ?m _ = _ => destruct m as [x| |]; try discriminate end. cbn [bind] in H. destruct (index_of x 0 tv) as [j|]; [|now apply D].
    destruct (nth_opt args j) as [a|] eqn:N; [|discriminate]. injection H as ->. apply nth_opt_In in N. cbn [args_end] in A. rewrite Forall_forall in A. auto.
  Qed.

  Definition uname (l : list pytype) := union_func_name P "union_de" l.
  (** The function that [d] has under the name of the union [l] is that of [l]. *)
  Definition own_union (d : classdef) (l : list pytype) : Prop := forall l', find_union P d "union_de" (uname l) = Some l' -> l' = l.

  Lemma arm_wgt cx t v w : arm_data P cx t v = Ok w -> wgt w <= wgt v.
  Proof.
    unfold arm_data. destruct (taggable t); [|intros E; injection E as <-; lia]. destruct (c_tagging (x_cls cx)); intros H.
    - inv_bind H. inv_bind H. apply wgt_getitem in H. lia.
    - inv_bind H. inv_bind H. inv_bind H. inv_bind H. injection H as <-. lia.
    - inv_bind H. inv_bind H. inv_bind H. inv_bind H. inv_bind H. inv_bind H. apply wgt_getitem in H. lia.
    - injection H as <-. lia.
  Qed.
  Lemma fin_arm cx t v : arm_data P cx t v <> NoFuel.
  Proof.
    unfold arm_data. destruct (taggable t); [|discriminate]. destruct (c_tagging (x_cls cx)); try discriminate;
      repeat (apply fin_bind; [first [apply fin_py_in|apply fin_ensure|apply fin_getitem]|intros ? _]); try apply fin_getitem; discriminate.
  Qed.

  Lemma union_settles d N t : total_reader d ->
    (forall d' v, mentions t d' -> wgt v < N -> DeEnds None d' v) -> (forall l, sub_ty (TUnion l) t -> own_union d l) ->
    forall l, sub_ty (TUnion l) t -> forall v ro, wgt v < N -> settles (fun n => run n (QUnionDe d (uname l) v ro dn)).
  Proof.
    intros T.
    assert (SUB : forall a t, sub_ty a t -> (forall d' v, mentions t d' -> wgt v < N -> DeEnds None d' v) -> (forall l, sub_ty (TUnion l) t -> own_union d l) ->
      (forall d' v, mentions a d' -> wgt v < N -> DeEnds None d' v) /\ (forall l, sub_ty (TUnion l) a -> own_union d l)).
    { intros a u S A B. split.
      - intros d' v (c & C & R). apply A. exists c. split; [|exact R]. destruct C as [C|[x C]]; [left|right; exists x]; eapply sub_ty_trans; eauto.
      - intros l L. apply B. eapply sub_ty_trans; eauto. }
    induction t using pytype_ind'; intros DC UC l0 SU v ro L; try (inversion SU; fail).
    2-6,8,9: inversion SU; subst; match goal with X : sub_ty (TUnion _) ?a |- settles _ => edestruct (SUB a) as [A B];
      [|exact DC|exact UC|eauto]; first [apply sub_dict_k; constructor|apply sub_dict_v; constructor|repeat constructor] end.
    2: { inversion SU as [| | | | | | | |? ? a Ia Sa| |]; subst. rewrite Forall_forall in H. destruct (SUB a (TTuple l)) as [A B]; [econstructor; [exact Ia|constructor]|exact DC|exact UC|]. eapply H; eauto. }
    inversion SU as [|? ? a Ia Sa| | | | | | | | |]; subst.
    2: { rewrite Forall_forall in H. destruct (SUB a (TUnion l)) as [A B]; [econstructor; [exact Ia|constructor]|exact DC|exact UC|]. eapply H; eauto. }
    apply set_run. cbn [step]. destruct (find_union P d "union_de" (uname l)) as [l'|] eqn:FU; [|now apply (set_ret (Raise XKey))].
    apply (UC l SU) in FU. subst l'. cbn [of_option bind]. apply set_bind_pure; [apply fin_render_union_de|]. intros arms AR.
    assert (AL : Forall (fun te => In (fst te) l /\ de_ty P W (union_de_cfg d) union_de_arg (fst te) = Ok (snd te)) arms).
    { unfold render_union_de in AR. clear -AR. revert arms AR. induction l as [|t l IH]; intros arms AR; cbn [mapM] in AR; [injection AR as <-; constructor|].
      destruct (de_ty P W (union_de_cfg d) union_de_arg t) as [e| |] eqn:E; try discriminate. cbn [bind] in AR. destruct (_ && _); [|discriminate]. cbn [bind] in AR.
      inv_bind AR. injection AR as <-. constructor; [split; [now left|exact E]|]. eapply Forall_impl; [|eapply IH; eassumption]. intros te [X Y]. split; [now right|exact Y]. }
    clear AR. set (cx := de_ctx P d ro dn None None None).
    induction AL as [|[t e] r [Ia E] _ IH]; cbn [run_union_de]; [now apply (set_ret (Raise _))|]. cbn [fst snd] in *.
    apply set_catch; [|intros _; exact IH]. unfold run_arm. apply set_bind_pure; [apply fin_arm|]. intros w WE. apply arm_wgt in WE.
    apply set_bind_pure.
    { destruct (_ || _); [|discriminate]. apply fin_bind; [apply fin_resolve|]. intros t' _. destruct (bear P W w t'); discriminate. }
    intros _ _. rewrite Forall_forall in H. assert (ST : sub_ty t (TUnion l)) by (econstructor; [exact Ia|constructor]).
    destruct (SUB t (TUnion l) ST DC UC) as [A B].
    apply set_bind; [|intros x _; apply set_bind_pure; [apply fin_resolve|]; intros t' _; apply set_bind_pure; [apply fin_ensure|]; intros; now apply set_ret].
    eapply (eval_settles "fake_dict" None (fun c => sub_ty (TClass c) t \/ exists a, sub_ty (TGen c a) t) (fun l => sub_ty (TUnion l) t) (S (wgt v)) cx); try discriminate.
    - reflexivity.
    - exact T.
    - intros f g F. apply (fns_total d f g T F).
    - exact DT.
    - intros c c' d' x ta C G TN LX. apply A; [|lia]. exists c. split; [exact C|]. eauto.
    - intros l1 x S1 LX. apply (H t Ia A B l1 S1). lia.
    - intros i t1 x GE. eapply (generic_ends None); [exact I|exact GE].
    - intros y z LY. cbn [slookup] in LY. destruct (String.eqb_spec "fake_dict" y) as [<-|].
      + injection LY as <-. cbn. split; [lia|]. intros Q. now destruct Q.
      + destruct (String.eqb "data" y); [|discriminate]. injection LY as <-. lia.
    - refine (de_ty_reader _ _ _ _ _ _ _ _ _ _ _ _ _ E); try discriminate; try reflexivity.
      + split; try (cbn; eauto; fail). discriminate.
      + split; auto.
  Qed.

  Section Class.
    Variables (d : classdef) (mg : option pytype).
    Hypothesis GD : get_class P (c_id d) = Some d.
    Hypothesis AE : args_end mg.
    Lemma class_total : total_reader d.
    Proof. destruct TR as (_ & _ & _ & T). eapply T. exact GD. Qed.

    (** The code of a field ends if the functions for the classes in its type end on what is in the data. *)
    Lemma field_settles f N root a e rho ro mgtv vta :
      "v" <> root -> "k" <> root -> inarg root (Some (c_id d)) a -> bounded root N rho ->
      (forall d' v, mentions (f_type f) d' -> wgt v < N -> DeEnds None d' v /\ DeEnds mg d' v) ->
      (forall l, sub_ty (TUnion l) (f_type f) -> own_union d l) ->
      de_render P W (de_cfg d true) a (f_type f) = Ok e ->
      settles (fun n => eval P W (run n) (de_ctx P d ro dn mg mgtv vta) rho e).
    Proof.
      intros RV RK A B DC UC E. pose proof class_total as T.
      eapply (eval_settles root (Some (c_id d)) (fun c => sub_ty (TClass c) (f_type f) \/ exists a, sub_ty (TGen c a) (f_type f)) (fun l => sub_ty (TUnion l) (f_type f)) N (de_ctx P d ro dn mg mgtv vta)).
      - reflexivity.
      - intros c Q. injection Q as <-. exact GD.
      - exact T.
      - intros g h F. apply (fns_total d g h T F).
      - exact DT.
      - intros c c' d' x ta C G TN LX. apply (DC d' x); [|exact LX]. exists c. split; [exact C|]. eauto.
      - intros l x SU LX. apply (union_settles d N (f_type f)); auto. intros d' w M L. now apply (DC d' w).
      - intros i t x GE. eapply generic_ends; [exact AE|exact GE].
      - exact B.
      - refine (render_reader _ _ _ _ RV RK (de_cfg d true) _ _ _ eq_refl A _ E). split; auto.
    Qed.

    Lemma mapMi_In {A B} (f : nat -> A -> res B) l y : forall i out, mapMi_from f i l = Ok out -> In y out -> exists j x, In x l /\ f j x = Ok y.
    Proof.
      induction l as [|x l IH]; intros i out H I; cbn [mapMi_from] in H; [injection H as <-; destruct I|].
      destruct (f i x) as [b| |] eqn:E; try discriminate. cbn [bind] in H. inv_bind H. injection H as <-.
      destruct I as [<-|I]; [exists i, x; split; [now left|exact E]|]. edestruct IH as (j & z & Z & Q); eauto. exists j, z. split; [now right|exact Q].
    Qed.
    Lemma defields_In all f : defields d = Ok all -> In f (filter renderable all) -> In f (c_fields d) /\ f_init f = true /\ f_skip f = false /\ f_skip_de f = false.
    Proof.
      intros H I. apply filter_In in I as [I R]. split.
      - assert (X : forall l all, mapM (fun f => _ <- check_field f ;; _ <- field_skip (c_skip_if_default d) (c_skip_if_none d) f ;; Ok f) l = Ok all -> all = l).
        { induction l as [|x l IH]; intros al Q; cbn [mapM] in Q; [now injection Q as <-|].
          destruct (check_field x); try discriminate. cbn [bind] in Q. destruct (field_skip _ _ x); try discriminate. cbn [bind] in Q.
          inv_bind Q. injection Q as <-. f_equal. now apply IH. }
        apply X in H. now subst all.
      - unfold renderable in R. apply andb_prop in R as [R1 R2]. apply negb_true_iff, orb_false_iff in R2. tauto.
    Qed.

    Lemma class_settles v :
      (forall f d' w N, In f (c_fields d) -> f_init f = true -> f_skip f = false -> f_skip_de f = false -> mentions (f_type f) d' ->
        (c_transparent d = true \/ f_flatten f = true) \/ N <= wgt v -> wgt w < N -> DeEnds None d' w /\ DeEnds mg d' w) ->
      (forall f l, In f (c_fields d) -> sub_ty (TUnion l) (f_type f) -> own_union d l) ->
      DeEnds mg d v.
    Proof.
      intros DC UC ro mgtv vta. pose proof class_total as T. apply set_run. cbn [step]. apply set_bind_pure; [now apply fin_render_de|]. intros body HB. cbv zeta.
      set (tv := match mgtv with Some (_ :: _) => mgtv | _ => c_tvars d end). clearbody tv. set (ro' := flag ro (c_reuse d)). clearbody ro'.
      unfold render_de, render_from_dict in HB. destruct (defields d) as [all| |] eqn:AL; try discriminate. cbn [bind] in HB. cbv zeta in HB.
      destruct (c_transparent d) eqn:TP.
      - destruct (filter renderable all) as [|f fs] eqn:FS; [discriminate|]. destruct (force_kw false all) as [|arg args]; [discriminate|].
        assert (FI := defields_In all f AL). rewrite FS in FI. destruct (FI (or_introl eq_refl)) as (If & R1 & R2 & R3).
        match type of HB with bind ?m _ = _ => destruct m as [e| |] eqn:E; try discriminate end. cbn [bind] in HB. injection HB as <-. cbn [run_de_body].
        apply set_bind; [|intros; apply set_ret; now apply fin_ctor with d].
        refine (field_settles f (S (S (wgt v))) "" _ e _ ro' tv vta _ _ _ _ _ _ E); try discriminate.
        + split; cbn [da_var da_inner da_flatten da_iter da_parent part_of]; [eexists; reflexivity|discriminate|reflexivity|now right].
        + intros y z LY. cbn [slookup] in LY. destruct (String.eqb "fake_dict" y); [injection LY as <-; cbn; lia|].
          destruct (String.eqb "data" y); [|discriminate]. injection LY as <-. lia.
        + intros d' w M L. apply (DC f d' w _ If R1 R2 R3 M (or_introl (or_introl eq_refl)) L).
        + intros l. now apply UC.
      - destruct (known_fields P W (class_fuel P) d) as [known| |]; try discriminate. cbn [bind] in HB.
        match type of HB with bind ?m _ = _ => destruct m as [l| |] eqn:E; try discriminate end. cbn [bind] in HB. destruct (check_args _ _); [|discriminate]. injection HB as <-.
        cbn [run_de_body]. apply set_bind_pure.
        { destruct (if c_deny d && _ then _ else _); [|discriminate]. apply fin_bind; [apply fin_items_or|]. intros kvs _. destruct (forallb _ _); discriminate. }
        intros _ _. apply set_bind_pure.
        { destruct (if existsb is_flat_dict_field _ then _ else _); [|discriminate]. apply fin_bind; [apply fin_items_or|discriminate]. }
        intros ex _. apply set_bind; [|intros; apply set_ret; now apply fin_ctor with d].
        apply set_foldM. intros st vals Ist.
        destruct (mapMi_In _ _ _ _ _ E Ist) as (j & f & If & SF). apply (defields_In all f AL) in If as (If & R1 & R2 & R3).
        destruct (is_flat_dict_field f); [injection SF as <-; cbn [run_dstmt]; now apply set_ret|].
        match type of SF with bind ?m _ = _ => destruct m as [pv| |] eqn:PV; try discriminate end. cbn [bind] in SF. cbv zeta in SF.
        match type of SF with bind ?m _ = _ => destruct m as [e| |] eqn:EE; try discriminate end. cbn [bind] in SF.
        assert (ST : forall miss, settles (fun n => run_dstmt P W (run n) (de_ctx P d ro' dn mg tv vta) v ex vals (DsField (f_name f) (fst pv) e miss))).
        { intros miss. cbn [run_dstmt].
          assert (FIN : forall r : res pyval, r <> NoFuel -> match miss, r with
            | _, Ok v0 => Ok (vals ++ [(f_name f, v0)])
            | Some k, Raise XKey => Raise (XSerde (MMissing k (c_name d)))
            | _, Raise e => Raise e
            | _, NoFuel => NoFuel
            end <> NoFuel) by (intros [x|x|] Hr; [destruct miss; discriminate|destruct miss; [destruct x|]; discriminate|easy]).
          assert (DCf : forall N, (c_transparent d = true \/ f_flatten f = true) \/ N <= wgt v -> forall d' w, mentions (f_type f) d' -> wgt w < N -> DeEnds None d' w /\ DeEnds mg d' w)
            by (intros N HN d' w M L; rewrite TP in HN; exact (DC f d' w N If R1 R2 R3 M HN L)).
          destruct (flat_child f) as [c|] eqn:FC.
          - destruct (get_class P c); [|discriminate]. inv_bind PV. injection PV as <-. cbn [fst snd] in *.
            assert (FL : f_flatten f = true) by (unfold flat_child in FC; destruct (f_flatten f); [reflexivity|discriminate]).
            apply set_bind_pure; [apply fin_bind; [apply fin_project|discriminate]|]. intros rho RH. destruct (project_flat _ _ v) as [fd| |]; try discriminate. cbn [bind] in RH. injection RH as <-.
            apply (set_map _ (fun r => match miss, r with | _, Ok v0 => Ok (vals ++ [(f_name f, v0)]) | Some k, Raise XKey => Raise (XSerde (MMissing k (c_name d))) | _, Raise e => Raise e | _, NoFuel => NoFuel end)); [|exact FIN].
            refine (field_settles f (S (wgt v + wgt fd)) "" _ e _ ro' tv vta _ _ _ _ _ _ EE); try discriminate.
            + split; cbn [field_arg data_var da_var da_inner da_flatten da_iter da_parent part_of]; [eexists; reflexivity|discriminate|reflexivity|now right].
            + intros y z LY. cbn [slookup] in LY. destruct (String.eqb (flat_var (f_name f)) y); [injection LY as <-; cbn; lia|].
              destruct (String.eqb "data" y); [|discriminate]. injection LY as <-. lia.
            + apply DCf. auto.
            + intros l0. now apply UC.
          - injection PV as <-. cbn [fst snd bind] in *.
            apply (set_map _ (fun r => match miss, r with | _, Ok v0 => Ok (vals ++ [(f_name f, v0)]) | Some k, Raise XKey => Raise (XSerde (MMissing k (c_name d))) | _, Raise e => Raise e | _, NoFuel => NoFuel end)); [|exact FIN].
            destruct (f_flatten f) eqn:FL.
            + refine (field_settles f (S (wgt v)) "" _ e _ ro' tv vta _ _ _ _ _ _ EE); try discriminate.
              * split; cbn [field_arg data_var da_var da_inner da_flatten da_iter da_parent part_of]; [eexists; reflexivity|discriminate|reflexivity|now right].
              * intros y z LY. cbn [slookup] in LY. destruct (String.eqb "data" y); [|discriminate]. injection LY as <-. lia.
              * apply DCf. auto.
              * intros l0. now apply UC.
            + refine (field_settles f (wgt v) "data" _ e _ ro' tv vta _ _ _ _ _ _ EE); try discriminate.
              * split; cbn [field_arg data_var da_var da_inner da_flatten da_iter da_parent part_of]; [eexists; reflexivity|rewrite FL; discriminate|reflexivity|now right].
              * intros y z LY. cbn [slookup] in LY. destruct (String.eqb_spec "data" y) as [<-|]; [|discriminate]. injection LY as <-. split; [lia|]. intros Q. now destruct Q.
              * apply DCf. auto.
              * intros l0. now apply UC. }
        destruct (da_default _); [injection SF as <-; apply ST|]. inv_bind SF. injection SF as <-. apply ST.
    Qed.
  End Class.

  Hypothesis SG : staged.
  Hypothesis UC : forall c d f l, get_class P c = Some d -> In f (c_fields d) -> sub_ty (TUnion l) (f_type f) -> own_union d l.

  Lemma classes_end mg c d v : args_end mg -> get_class P c = Some d -> DeEnds mg d v.
  Proof.
    destruct SG as [rank R].
    assert (X : forall r c d, get_class P c = Some d -> rank c = r -> forall w v, wgt v = w -> forall mg, args_end mg -> DeEnds mg d v).
    { induction r as [r IHr] using lt_wf_ind. intros c0 d0 G0 R0 w. revert c0 d0 G0 R0. induction w as [w IHw] using lt_wf_ind. intros c0 d0 G0 R0 v0 WV mg0 AE.
      pose proof (get_class_id _ _ _ G0) as ID.
      apply class_settles; [congruence|exact AE| |intros; eapply UC; eauto].
      intros f d' x N If F1 F2 F3 M B L. destruct (R c0 d0 f d' G0 If F1 F2 F3 M) as [LE LT]. pose proof M as (_ & _ & c' & G' & _).
      pose proof (get_class_id _ _ _ G') as ID'.
      assert (Y : forall mg', args_end mg' -> DeEnds mg' d' x).
      { intros mg' AE'. rewrite ID' in LE, LT. destruct (Nat.lt_ge_cases (rank c') r) as [Q|Q]; [eapply (IHr (rank c')); eauto|].
        destruct B as [B|B]; [specialize (LT B); lia|]. eapply (IHw (wgt x)); eauto; lia. }
      split; [now apply Y|now apply Y]. }
    intros AE G. eapply X; eauto.
  Qed.

  (** * from_obj *)
  Lemma set_mapMi {A B} (f : nat -> nat -> A -> res B) l : (forall i x, In x l -> settles (fun n => f n i x)) -> forall i, settles (fun n => mapMi_from (f n) i l).
  Proof.
    induction l as [|x l IH]; intros H i; cbn [mapMi_from]; [now apply set_ret|].
    apply set_bind; [apply H; now left|]. intros a _. apply set_bind; [apply IH; intros; apply H; now right|]. intros b _. now apply set_ret.
  Qed.
  Lemma within_sub u a t : sub_ty a t -> within u a -> within u t.
  Proof. intros S0 H. inversion H; subst; [apply wi_sub|eapply wi_gen; [|eassumption..]]; eapply sub_ty_trans; eauto. Qed.
  Lemma within_trans u m t : sub_ty u m -> within m t -> within u t.
  Proof. intros S0 H. induction H; [apply wi_sub|eapply wi_gen; eauto]. eapply sub_ty_trans; eauto. Qed.
  Lemma wrapper_reader n t tg : total_reader (wrapper P n t tg).
  Proof. constructor; try (intros ? ? [<-|[]]; discriminate); intros; discriminate. Qed.

  Definition BodyEnds (t : pytype) : Prop := forall tg o ro, settles (fun n =>
    if type_is o t then Ok o
    else if is_union t && negb (is_opt t) then
      run n (QUnionDe (union_wrapper P K tg t) (union_func_name P "union_de" (union_args t)) o (c_reuse (union_wrapper P K tg t)) dn)
    else
      catch (from_obj_body P W (run n) match t with TGen k _ => TClass k | _ => t end t o true ro dn)
            (fun e => match e with XUser e => Raise e | _ => Raise (XSerde (MWrap e)) end)).
  Lemma body_obj t : BodyEnds (unalias t) -> ObjEnds t.
  Proof. intros H tg o ro. apply set_run. cbn [step]. apply H. Qed.

  Lemma body_ends t : (forall l tg l1, within (TUnion l) t -> sub_ty (TUnion l1) (TUnion l) -> own_union (union_wrapper P K tg (TUnion l)) l1) -> BodyEnds t /\ ObjEnds t.
  Proof.
    assert (HE : forall x e, match e with XUser e => Raise e | _ => Raise (XSerde (MWrap e)) end = x -> x <> @NoFuel pyval) by (intros x [] <-; discriminate).
    assert (CL : forall mg c o ro, args_end (Some mg) -> settles (fun n => d <- of_option XAttr (get_class P c) ;; run n (QDe d o true ro dn (Some mg) None None))).
    { intros mg c o ro AE. apply set_bind_pure; [apply fin_of_option|]. intros d GD. destruct (get_class P c) as [d0|] eqn:GC; [|discriminate]. injection GD as ->. eapply classes_end; eauto. }
    assert (FI : forall t' s0, first_de P t' = Some s0 -> forall o, settles (fun _ => cd_fn s0 t' o)).
    { intros t' s0 F o. apply set_ret. unfold first_de in F. apply find_some in F as [F _]. now apply TR. }
    assert (ST : forall t, (forall o ro, type_is o t = false -> is_union t && negb (is_opt t) = false -> first_de P match t with TGen k _ => TClass k | _ => t end = None -> settles (fun n => from_obj_body P W (run n) match t with TGen k _ => TClass k | _ => t end t o true ro dn)) ->
      (is_union t && negb (is_opt t) = true -> BodyEnds t) -> BodyEnds t).
    { intros u A B tg o ro. destruct (type_is o u) eqn:TI; [now apply set_ret|]. destruct (is_union u && negb (is_opt u)) eqn:IU.
      - specialize (B eq_refl tg o ro). rewrite TI, IU in B. exact B.
      - apply set_catch; [|intros e; apply set_ret; eapply HE; reflexivity].
        destruct (first_de P match u with TGen k _ => TClass k | _ => u end) as [s0|] eqn:F; [|now apply A].
        unfold from_obj_body. rewrite F. now apply FI. }
    assert (LF : forall t, unalias t = t -> BodyEnds t -> BodyEnds t /\ ObjEnds t) by (intros u E H; split; [exact H|apply body_obj; now rewrite E]).
    assert (SEQ : forall a o ro (f : list pyval -> res pyval), ObjEnds a -> (forall l, f l <> NoFuel) ->
      settles (fun n => l <- iter P o ;; l' <- mapM (fun e => run n (QFromObj (TagExternal, a) e true ro dn)) l ;; f l')).
    { intros a o ro f OE F. apply set_bind_pure; [apply fin_iter|]. intros l _. apply set_bind; [|intros; now apply set_ret]. apply set_mapM. intros. apply OE. }
    induction t using pytype_ind'; intros UW;
      try (apply LF; [reflexivity|]; apply ST; [|discriminate]; intros o ro TI IU FD; unfold from_obj_body; rewrite FD; cbv zeta iota beta).
    - destruct p; apply set_ret; try apply rfin_call_ctor. unfold from_float. destruct dn as [h|]; [now apply DT|apply rfin_call_ctor].
    - destruct p; apply set_ret; try apply rfin_call_ctor. unfold from_float. destruct dn as [h|]; [now apply DT|apply rfin_call_ctor].
    - apply set_ret, rfin_call_ctor.
    - apply set_ret, rfin_call_ctor.
    - now apply set_ret.
    - apply LF; [reflexivity|]. apply ST.
      + intros o ro TI IU FD. unfold from_obj_body. rewrite FD. cbv zeta iota beta. destruct l as [|a l]; [apply set_ret, rfin_call_ctor|].
        assert (OA : ObjEnds a). { inversion H as [|? ? Ha _]; subst. apply Ha. intros l1 tg1 l2 Wi. apply UW. eapply within_sub; [|exact Wi]. econstructor; [now left|constructor]. }
        destruct o; try apply OA. now apply set_ret.
      + intros IU tg o ro. destruct (type_is o (TUnion l)); [now apply set_ret|]. rewrite IU. cbn [union_args].
        apply (union_settles (union_wrapper P K tg (TUnion l)) (S (wgt o)) (TUnion l)); [apply wrapper_reader| | |constructor|lia].
        * intros d' v (c & _ & c' & GC & _) _. eapply classes_end; [exact I|exact GC].
        * intros l1 S1. apply UW; [apply wi_sub; constructor|exact S1].
    - apply SEQ; [|discriminate]. apply IHt. intros l tg1 l1 Wi. apply UW. eapply within_sub; [|exact Wi]. repeat constructor.
    - apply SEQ; [|intros; apply fin_mk_seq]. apply IHt. intros l tg1 l1 Wi. apply UW. eapply within_sub; [|exact Wi]. repeat constructor.
    - apply SEQ; [|discriminate]. apply IHt. intros l tg1 l1 Wi. apply UW. eapply within_sub; [|exact Wi]. repeat constructor.
    - assert (OA : ObjEnds t) by (apply IHt; intros l tg1 l1 Wi; apply UW; eapply within_sub; [|exact Wi]; repeat constructor).
      apply set_bind_pure; [apply fin_items|]. intros l _. apply set_bind; [|intros; apply set_bind_pure; [apply fin_mk_map|]; intros; now apply set_ret].
      apply set_mapM. intros kv _. apply set_bind; [apply OA|]. intros. now apply set_ret.
    - assert (OA : ObjEnds t1) by (apply IHt1; intros l tg1 l1 Wi; apply UW; eapply within_sub; [|exact Wi]; apply sub_dict_k; constructor).
      assert (OB : ObjEnds t2) by (apply IHt2; intros l tg1 l1 Wi; apply UW; eapply within_sub; [|exact Wi]; apply sub_dict_v; constructor).
      apply set_bind_pure; [apply fin_items|]. intros l _. apply set_bind; [|intros; apply set_bind_pure; [apply fin_mk_map|]; intros; now apply set_ret].
      apply set_mapM. intros kv _. apply set_bind; [apply OA|]. intros. apply set_bind; [apply OB|]. intros. now apply set_ret.
    - apply set_bind_pure; [apply fin_iter|]. intros ys _. apply set_bind; [|intros; now apply set_ret]. apply set_mapMi. intros i x _.
      apply set_bind_pure; [apply fin_of_option|]. intros a NA. destruct (nth_opt l i) as [a'|] eqn:E; [|discriminate]. injection NA as ->. apply nth_opt_In in E.
      rewrite Forall_forall in H. apply (H a E). intros l0 tg1 l1 Wi. apply UW. eapply within_sub; [|exact Wi]. econstructor; [exact E|constructor].
    - apply set_bind_pure; [apply fin_iter|]. intros. now apply set_ret.
    - destruct b as [k|k|k| | |]; try (apply set_bind_pure; [apply fin_iter|]; intros); try (apply set_ret; first [discriminate|apply fin_mk_seq|apply fin_mk_counter]). destruct k; now apply set_ret.
    - apply set_ret, rfin_call_ctor.
    - now apply CL.
    - apply CL. cbn [args_end]. rewrite Forall_forall in *. intros a Ia. apply (H a Ia). intros l0 tg1 l1 Wi. apply UW. eapply wi_gen; [constructor|exact Ia|exact Wi].
    - apply set_ret, rfin_call_ctor.
    - apply set_ret, rfin_call_ctor.
    - apply set_ret, rfin_call_ctor.
    - apply set_ret. destruct TR as (_ & T & _). apply T.
    - apply set_ret, rfin_call_ctor.
    - split.
      + apply ST; [|discriminate]. intros o ro TI IU FD. unfold from_obj_body. rewrite FD. cbv zeta iota beta. apply set_ret, rfin_call_ctor.
      + apply body_obj. cbn [unalias]. apply IHt. intros l tg1 l1 Wi. apply UW. eapply within_sub; [|exact Wi]. repeat constructor.
    - apply set_ret, rfin_call_ctor.
  Qed.
End REnd.

(** * C62 *)
Section C62.
  Variables (P : program) (W : world) (K : list (tagging * pytype)).

  Lemma union_found d f l : find_union P d "union_de" f = Some l -> reach P d (TUnion l) /\ union_func_name P "union_de" l = f.
  Proof.
    unfold find_union. destruct (find _ _) as [u|] eqn:F; [|discriminate]. intros E. injection E as E.
    apply find_some in F as [F1 F2]. apply in_rev in F1.
    pose proof (iter_unions_sound P d) as S0. rewrite Forall_forall in S0. specialize (S0 u F1).
    pose proof (iter_unions_shape P d) as Sh. rewrite Forall_forall in Sh. destruct (Sh u F1) as [l' ->]. cbn [union_args] in *. subst l'.
    split; [exact S0|]. now apply String.eqb_eq.
  Qed.

  (** Reading any data as any type ends: there is an outcome, an object or an exception, that is reached however many more
      nested calls are allowed.  Classes may refer to themselves and to each other, in containers, unions and as
      type arguments. *)
  Theorem C62_ends tg c o reuse dn :
    total_readers P W -> (forall h, dn = Some h -> total h) -> read_apart P K c -> staged P ->
    exists r, r <> NoFuel /\ exists N, forall n, N <= n -> from_dict P W K n (tg, c) o reuse dn = r.
  Proof.
    intros TR DT RA SG.
    assert (RE : forall d u, reach P d (TUnion u) -> (forall f, In f (c_fields d) -> forall l, sub_ty (TUnion l) (f_type f) -> read_union P K c l) -> read_union P K c u).
    { intros d u R HF. inversion R as [|f t I _ S0|k d' f t _ G I _ S0]; subst; [eauto|].
      exists (f_type f). split; [now apply wi_sub|]. left. exists d', f. split; [eapply get_class_In; eauto|auto]. }
    assert (ST : settles (fun n => run P W K n (QFromObj (tg, c) o true reuse dn))).
    { refine (proj2 (body_ends P W K TR dn DT SG _ c _) tg o reuse).
      - intros k d f l G I S0 l' F. apply union_found in F as [R E].
        assert (HF : forall f, In f (c_fields d) -> forall l, sub_ty (TUnion l) (f_type f) -> read_union P K c l).
        { intros f1 I1 l1 S1. exists (f_type f1). split; [now apply wi_sub|]. left. exists d, f1. split; [eapply get_class_In; eauto|auto]. }
        apply RA; eauto.
      - intros l tg1 l1 Wi S1 l' F. apply union_found in F as [R E].
        assert (WL : within (TUnion l1) c) by (eapply within_trans; eauto).
        apply RA; [|exists c; auto|exact E]. eapply RE; [exact R|]. intros f If l2 S2. destruct If as [<-|[]]. cbn [f_type] in S2.
        destruct (find _ K) as [[tg' t']|] eqn:FK; cbn [snd] in S2.
        + apply find_some in FK as [IK _]. exists t'. split; [now apply wi_sub|]. eauto.
        + exists c. split; [eapply within_trans; eauto|auto]. }
    exact ST.
  Qed.
End C62.
Print Assumptions C62_ends.

Module REndEx.
  (** A recursive class with a flattened part, two unions and an optional field, and a transparent class around it *)
  Definition Pos := cls "Pos" [fld "x" TInt; with_default (VInt 0) (fld "y" TInt)].
  Definition Node := cls "Node"
    [flat (fld "pos" (TClass "Pos")); fld "kids" (TList LList (TClass "Node")); fld "left" (TUnion [TClass "Node"; TInt]);
     with_default VNone (fld "up" (TOpt (TClass "Node")))].
  Definition Wrap := clsx "Wrap" [fld "v" (TClass "Node")] None TagExternal TcStrict true false.
  Definition rp := prog [Pos; Node; Wrap] [].
  Definition arg := TDict DkDict TString (TUnion [TClass "Wrap"; TString]).
  Definition leaf (x : Z) := dict [("x", VInt x); ("kids", vlist []); ("left", VInt 3)].
  Definition data := dict [("k", dict [("Wrap", dict [("x", VInt 1); ("y", VInt 2); ("kids", vlist [leaf 5]); ("left", dict [("Node", leaf 6)]); ("up", leaf 7)])])].

  Lemma get_rp c d : get_class rp c = Some d -> c = "Pos" /\ d = Pos \/ c = "Node" /\ d = Node \/ c = "Wrap" /\ d = Wrap.
  Proof.
    intros H. destruct (find_class_id _ _ _ H) as [E [<-|[<-|[<-|[]]]]]; [left|right; left|right; right]; (split; [symmetry; exact E|reflexivity]).
  Qed.
  Lemma W0_iso k : total (w_iso W0 k).
  Proof. intros []; discriminate. Qed.
  Lemma rp_total : total_readers rp W0.
  Proof.
    split; [exact EndEx.W0_total|]. split; [exact W0_iso|]. split; [intros s t []|]. intros c d H.
    destruct (get_rp _ _ H) as [[_ ->]|[[_ ->]|[_ ->]]]; split; try discriminate;
      intros f g I E; repeat (destruct I as [<-|I]; [discriminate E|]); destruct I.
  Qed.
  Ltac subs := repeat match goal with
    | I : In _ _ |- _ => progress cbn [In] in I
    | I : _ \/ _ |- _ => destruct I as [I|I]
    | I : False |- _ => destruct I
    | I : exists _, _ |- _ => destruct I as [? I]
    | I : _ = ?x |- _ => is_var x; subst x
    | I : ?x = _ |- _ => is_var x; subst x
    | I : sub_ty _ (TPrim _) |- _ => inversion I; clear I
    | I : sub_ty _ TInt |- _ => inversion I; clear I
    | I : sub_ty _ TNone |- _ => inversion I; clear I
    | I : sub_ty _ TString |- _ => inversion I; clear I
    | I : sub_ty _ (TClass _) |- _ => inversion I; clear I
    | I : sub_ty _ (TUnion _) |- _ => inversion I; clear I
    | I : sub_ty _ (TOpt _) |- _ => inversion I; clear I
    | I : sub_ty _ (TList _ _) |- _ => inversion I; clear I
    | I : sub_ty _ (TDict _ _ _) |- _ => inversion I; clear I
    | I : sub_ty _ ?t |- _ => unfold t in I
    end; subst.
  Lemma rp_staged : staged rp.
  Proof.
    exists (fun c => if String.eqb c "Pos" then 0 else if String.eqb c "Node" then 1 else 2). intros c d f d' G I FI _ _ (c0 & M & c1 & G1 & E).
    destruct (get_rp _ _ G) as [[-> ->]|[[-> ->]|[-> ->]]]; repeat (destruct I as [<-|I]); try (now destruct I); cbn [f_type fld flat with_default] in M; subs;
      try discriminate;
      destruct (get_rp _ _ G1) as [[-> ->]|[[-> ->]|[-> ->]]]; try discriminate E; cbn; (split; [lia|first [lia | intros [X|X]; discriminate X]]).
  Qed.
  Definition unions := [[TClass "Node"; TInt]; [TClass "Node"; TNone]; [TClass "Wrap"; TString]].
  Lemma rp_apart : read_apart rp [] arg.
  Proof.
    assert (H : forall l, read_union rp [] arg l -> In l unions).
    { intros l (t & IN & H).
      assert (C : In t [TInt; TClass "Pos"; TList LList (TClass "Node"); TUnion [TClass "Node"; TInt]; TOpt (TClass "Node"); TClass "Node"; arg]).
      { destruct H as [(d & f & D & F & <-)|[->|(tg & [])]]; [|cbn; auto 8].
        destruct D as [<-|[<-|[<-|[]]]]; repeat (destruct F as [<-|F]; [cbn; auto 8|]); destruct F. }
      clear H. repeat (destruct C as [<-|C]); try (now destruct C); inversion IN as [u t S0 E1 E2|u t c args a S0 I IN' E1 E2]; clear IN; subs; try discriminate; cbn; auto. }
    intros u l U L. apply H in U, L. cbn [unions In] in U, L.
    destruct U as [<-|[<-|[<-|[]]]]; destruct L as [<-|[<-|[<-|[]]]]; intros E; try reflexivity; vm_compute in E; discriminate E.
  Qed.
  Example ends o reuse : exists r, r <> NoFuel /\ exists N, forall n, N <= n -> from_dict rp W0 [] n (TagExternal, arg) o reuse None = r.
  Proof. apply C62_ends; [exact rp_total|discriminate|exact rp_apart|exact rp_staged]. Qed.
  Example ends_in : from_dict rp W0 [] 12 (TagExternal, arg) data None None =
    let pos x y := VObj "Pos" [("x", VInt x); ("y", VInt y)] in
    let lf x := VObj "Node" [("pos", pos x 0%Z); ("kids", vlist []); ("left", VInt 3); ("up", VNone)] in
    Ok (dict [("k", VObj "Wrap" [("v", VObj "Node" [("pos", pos 1%Z 2%Z); ("kids", vlist [lf 5%Z]); ("left", lf 6%Z); ("up", lf 7%Z)])])]).
  Proof. vm_compute. reflexivity. Qed.

  (** Nested lists, as a transparent class *)
  Definition Nest := clsx "Nest" [fld "v" (TList LList (TClass "Nest"))] None TagExternal TcStrict true false.
  Definition np := prog [Nest] [].
  Example nest : from_dict np W0 [] 9 (TagExternal, TClass "Nest") (vlist [vlist []; vlist []]) None None =
    let e := VObj "Nest" [("v", vlist [])] in Ok (VObj "Nest" [("v", vlist [e; e])]).
  Proof. vm_compute. reflexivity. Qed.
  Ltac spin := match goal with IH : forall ro mg mt vt, ?c _ = _ |- _ => generalize dependent c; intros call IH; vm_compute in IH |- *; rewrite IH; reflexivity end.
  Lemma np_loops n : forall ro mg mt vt, run np W0 [] n (QDe Nest (VStr "a") true ro None mg mt vt) = NoFuel.
  Proof. induction n as [|n IH]; [reflexivity|]. intros ro mg mt vt. cbn [run]. spin. Qed.

  (** A class flattened into itself *)
  Definition Self := cls "Self" [fld "n" TInt; flat (fld "s" (TClass "Self"))].
  Definition sp := prog [Self] [].
  Lemma sp_loops n : forall ro mg mt vt, run sp W0 [] n (QDe Self (dict [("n", VInt 1)]) true ro None mg mt vt) = NoFuel.
  Proof. induction n as [|n IH]; [reflexivity|]. intros ro mg mt vt. cbn [run]. spin. Qed.

  (** A tree *)
  Definition Tree := cls "Tree" [fld "kids" (TList LList (TClass "Tree"))].
  Definition tp := prog [Tree] [].
  Lemma tp_loops n : forall ro mg mt vt, run tp W0 [] n (QDe Tree (VStr "a") false ro None mg mt vt) = NoFuel.
  Proof. induction n as [|n IH]; [reflexivity|]. intros ro mg mt vt. cbn [run]. spin. Qed.

  Lemma no_union_apart P c : (forall d f l, In d (p_classes P) -> In f (c_fields d) -> ~ within (TUnion l) (f_type f)) -> (forall l, ~ within (TUnion l) c) -> read_apart P [] c.
  Proof. intros A B u l (t & Wi & [(d & f & D & F & <-)|[->|(tg & [])]]) _ _; exfalso; [eapply A; eauto|eapply B; eauto]. Qed.
End REndEx.
Import REndEx.

(** Without [staged] it can go on forever: a text is read as the list of its characters, which are texts, ... *)
Theorem C62_transparent_refuted : exists P c o, total_readers P W0 /\ read_apart P [] c /\
  forall n, from_dict P W0 [] n (TagExternal, c) o None None = NoFuel.
Proof.
  exists np, (TClass "Nest"), (VStr "a"). split; [|split].
  - split; [exact EndEx.W0_total|]. split; [exact W0_iso|]. split; [intros s t []|]. intros c d H. destruct (find_class_id _ _ _ H) as [_ [<-|[]]].
    split; try discriminate; intros f g [<-|[]] E; discriminate E.
  - apply no_union_apart.
    + intros d f l [<-|[]] [<-|[]] IN; cbn [f_type fld] in IN; inversion IN; clear IN; subs; discriminate.
    + intros l IN; inversion IN; clear IN; subs; discriminate.
  - intros [|n]; [reflexivity|]. unfold from_dict. cbn [run]. assert (H := np_loops n). revert H. generalize (run np W0 [] n). intros call IH. vm_compute in IH |- *. rewrite IH. reflexivity.
Qed.
(** ... or a class reads itself from the data it is read from. *)
Theorem C62_flatten_refuted : exists P c o, total_readers P W0 /\ read_apart P [] c /\
  forall n, from_dict P W0 [] n (TagExternal, c) o None None = NoFuel.
Proof.
  exists sp, (TClass "Self"), (dict [("n", VInt 1)]). split; [|split].
  - split; [exact EndEx.W0_total|]. split; [exact W0_iso|]. split; [intros s t []|]. intros c d H. destruct (find_class_id _ _ _ H) as [_ [<-|[]]].
    split; try discriminate; intros f g [<-|[<-|[]]] E; discriminate E.
  - apply no_union_apart.
    + intros d f l [<-|[]] [<-|[<-|[]]] IN; cbn [f_type fld flat] in IN; inversion IN; clear IN; subs; discriminate.
    + intros l IN; inversion IN; clear IN; subs; discriminate.
  - intros [|n]; [reflexivity|]. unfold from_dict. cbn [run]. assert (H := sp_loops n). revert H. generalize (run sp W0 [] n). intros call IH. vm_compute in IH |- *. rewrite IH. reflexivity.
Qed.
(** from_tuple does not end for classes for which from_dict does, since a text has a first element that is a text. *)
Theorem C62_tuple_refuted : exists P c o, total_readers P W0 /\ read_apart P [] c /\ staged P /\
  forall n, from_tuple P W0 [] n (TagExternal, c) o None None = NoFuel.
Proof.
  exists tp, (TClass "Tree"), (VStr "a"). split; [|split; [|split]].
  - split; [exact EndEx.W0_total|]. split; [exact W0_iso|]. split; [intros s t []|]. intros c d H. destruct (find_class_id _ _ _ H) as [_ [<-|[]]].
    split; try discriminate; intros f g [<-|[]] E; discriminate E.
  - apply no_union_apart.
    + intros d f l [<-|[]] [<-|[]] IN; cbn [f_type fld] in IN; inversion IN; clear IN; subs; discriminate.
    + intros l IN; inversion IN; clear IN; subs; discriminate.
  - exists (fun _ => 0). intros c d f d' G I _ _ _ _. destruct (find_class_id _ _ _ G) as [_ [<-|[]]]. destruct I as [<-|[]]. split; [auto|]. intros [X|X]; discriminate X.
  - intros [|n]; [reflexivity|]. unfold from_tuple. cbn [run]. assert (H := tp_loops n). revert H. generalize (run tp W0 [] n). intros call IH. vm_compute in IH |- *. rewrite IH. reflexivity.
Qed.
Print Assumptions C62_transparent_refuted.
Print Assumptions C62_flatten_refuted.
Print Assumptions C62_tuple_refuted.
