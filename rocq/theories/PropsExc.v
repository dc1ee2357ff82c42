(** Which exceptions escape (C24). *)
From Coq Require Import String List ZArith Bool Ascii Lia.
From Verif Require Import Base PyVal PyType Program Compat Syntax SeRender DeRender Eval Facts Mono Cover Cache Depend Ex.
Import ListNotations.
Open Scope string_scope.
Open Scope list_scope.

(** User code does not raise serde's internal UserError itself. *)
Definition calm {A} (r : res A) : Prop := forall e, r <> Raise (XUser e).

Definition calm_field (f : fielddef) : Prop :=
  (forall g v, f_deserializer f = Some (FFun g) -> calm (g v)) /\ (forall r, f_default f = Some (DFact r) -> calm r).
Definition calm_class (d : classdef) : Prop :=
  (forall o, calm (c_post d o)) /\ (forall g t v, c_deserializer d = Some g -> calm (g t v)) /\
  (forall s t v, c_class_de d = Some s -> calm (cd_fn s t v)) /\ Forall calm_field (c_fields d).
Definition calm_program (P : program) (W : world) : Prop :=
  Forall calm_class (p_classes P) /\ Forall (fun s => forall t v, calm (cd_fn s t v)) (p_des P) /\
  (forall k v, calm (w_ctor W k v)) /\ (forall k v, calm (w_iso W k v)).

Section Exc.
  Variables (P : program) (W : world) (K : list (tagging * pytype)).
  Hypothesis CP : calm_program P W.

  (** An exception of the constructor of some class of the program *)
  Definition ctor_exc (x : exn) : Prop :=
    exists c d pos kws, get_class P c = Some d /\ construct P W d pos kws = Raise x.

  Definition fine {A} (r : res A) : Prop := forall x, r = Raise (XUser x) -> ctor_exc x.

  Lemma calm_fine {A} (r : res A) : calm r -> fine r.
  Proof. intros C x E. now apply C in E. Qed.
  Lemma calm_ok {A} (a : A) : calm (Ok a). Proof. discriminate. Qed.
  Lemma calm_raise {A} e : (forall x, e <> XUser x) -> calm (@Raise A e).
  Proof. intros H x E. injection E as ->. now apply (H x). Qed.
  Lemma calm_bind {A B} (m : res A) (k : A -> res B) : calm m -> (forall a, calm (k a)) -> calm (bind m k).
  Proof. intros M F x. destruct m; cbn [bind]; [apply F| |discriminate]. intros E. apply (M x). now injection E as ->. Qed.
  Lemma fine_bind {A B} (m : res A) (k : A -> res B) : fine m -> (forall a, fine (k a)) -> fine (bind m k).
  Proof. intros M F x. destruct m; cbn [bind]; [apply F| |discriminate]. intros E. apply (M x). now injection E as ->. Qed.
  Lemma calm_option {A} e (o : option A) : (forall x, e <> XUser x) -> calm (of_option e o).
  Proof. intros H. destruct o; [apply calm_ok|now apply calm_raise]. Qed.
  Lemma calm_mapM {A B} (f : A -> res B) l : (forall a, calm (f a)) -> calm (mapM f l).
  Proof. intros H. induction l; cbn [mapM]; [apply calm_ok|]. repeat (apply calm_bind; auto; intros). apply calm_ok. Qed.
  Lemma fine_mapM {A B} (f : A -> res B) l : (forall a, fine (f a)) -> fine (mapM f l).
  Proof. intros H. induction l; cbn [mapM]; [apply calm_fine, calm_ok|]. repeat (apply fine_bind; auto; intros). apply calm_fine, calm_ok. Qed.
  Lemma fine_mapM_in {A B} (f : A -> res B) l : Forall (fun a => fine (f a)) l -> fine (mapM f l).
  Proof. intros H. induction H; cbn [mapM]; [apply calm_fine, calm_ok|]. repeat (apply fine_bind; auto; intros). apply calm_fine, calm_ok. Qed.
  Lemma fine_mapMi {A B} (f : nat -> A -> res B) l : (forall i a, fine (f i a)) -> forall n, fine (mapMi_from f n l).
  Proof. intros H. induction l; intros n; cbn [mapMi_from]; [apply calm_fine, calm_ok|]. repeat (apply fine_bind; auto; intros). apply calm_fine, calm_ok. Qed.
  Lemma calm_foldM {A S} (f : S -> A -> res S) l : (forall s a, calm (f s a)) -> forall s, calm (foldM f l s).
  Proof. intros H. induction l; intros s; cbn [foldM]; [apply calm_ok|]. apply calm_bind; auto. Qed.
  Lemma fine_foldM {A S} (f : S -> A -> res S) l : Forall (fun a => forall s, fine (f s a)) l -> forall s, fine (foldM f l s).
  Proof. intros H. induction H; intros s; cbn [foldM]; [apply calm_fine, calm_ok|]. apply fine_bind; auto. Qed.

  Ltac calm :=
    repeat first
      [ apply calm_ok | (apply calm_raise; discriminate) | (apply calm_option; discriminate)
      | apply calm_bind; [|intros] | apply calm_mapM; intros | apply calm_foldM; intros
      | match goal with |- calm (match ?x with _ => _ end) => destruct x end
      | match goal with |- calm (if ?x then _ else _) => destruct x end
      | assumption ].

  Lemma calm_getattr v a : calm (getattr P v a). Proof. unfold getattr. calm. Qed.
  Lemma calm_factory f : calm (factory_value f). Proof. unfold factory_value. calm. Qed.
  Lemma calm_getitem v k : calm (getitem P v k).
  Proof. unfold getitem. destruct v; calm. apply calm_factory. Qed.
  Lemma calm_getidx v k : calm (getidx P v k).
  Proof. unfold getidx. destruct v; calm; apply calm_factory. Qed.
  Lemma calm_slice v k : calm (slice P v k). Proof. unfold slice. destruct v; calm. Qed.
  Lemma calm_getopt v k : calm (getopt P v k). Proof. unfold getopt. calm. Qed.
  Lemma calm_py_in k v : calm (py_in P k v). Proof. unfold py_in. destruct v; calm. Qed.
  Lemma calm_get_aliases d ks r : calm (get_by_aliases P d ks r).
  Proof. induction ks; cbn [get_by_aliases]; calm; try apply calm_py_in. apply calm_getitem. Qed.
  Lemma calm_exists_aliases d ks : calm (exists_by_aliases P d ks).
  Proof. induction ks; cbn [exists_by_aliases]; calm; try apply calm_py_in. Qed.
  Lemma calm_iter v : calm (iter P v). Proof. unfold iter. destruct v; calm. Qed.
  Lemma calm_items v : calm (items v). Proof. unfold items. calm. Qed.
  Lemma calm_mk_seq k l : calm (mk_seq P k l). Proof. unfold mk_seq. calm. Qed.
  Lemma calm_mk_map l : calm (mk_map P l). Proof. unfold mk_map. calm. Qed.
  Lemma calm_counter v : calm (mk_counter P v).
  Proof. unfold mk_counter. destruct v; calm; apply calm_iter. Qed.
  Lemma calm_mapM_in {A B} (f : A -> res B) l : Forall (fun a => calm (f a)) l -> calm (mapM f l).
  Proof. intros H. induction H; cbn [mapM]; [apply calm_ok|]. repeat (apply calm_bind; auto; intros). apply calm_ok. Qed.
  Lemma calm_resolve g t : calm (resolve P g t).
  Proof.
    induction t using pytype_ind'; try (cbn [resolve]; unfold lookup_name; calm; fail).
    - cbn [resolve]. apply calm_bind; [now apply calm_mapM_in|intros; apply calm_ok].
    - destruct l; [apply calm_ok|]. change (resolve P g (TTuple (p :: l))) with (l' <- mapM (resolve P g) (p :: l) ;; Ok (TTuple l')).
      apply calm_bind; [now apply calm_mapM_in|intros; apply calm_ok].
  Qed.
  Lemma calm_ZF f : calm (Z_of_float f). Proof. unfold Z_of_float. calm. Qed.
  Lemma calm_FZ z : calm (float_of_Z z). Proof. unfold float_of_Z. calm. Qed.
  Lemma calm_prim p v : calm (prim_ctor P W p v).
  Proof.
    destruct CP as (_ & _ & CC & _). unfold prim_ctor. destruct p; calm; try apply calm_ZF; try apply calm_FZ; apply CC.
  Qed.
  Lemma calm_enum_call c v : calm (enum_call P c v). Proof. unfold enum_call. destruct (get_enum P c); [destruct (e_members e)|]; calm. Qed.
  Lemma calm_ctor t v : calm (call_ctor P W t v).
  Proof.
    destruct CP as (_ & _ & CC & _). unfold call_ctor. destruct t; calm; try apply calm_prim; try apply calm_enum_call; apply CC.
  Qed.
  Lemma calm_catch {A} (m : res A) h : (forall e, calm (h e)) -> calm (catch m h).
  Proof. intros H. destruct m; cbn [catch]; [apply calm_ok|apply H|discriminate]. Qed.
  Lemma calm_coerce c f t v : calm (coerce_object P W c f t v).
  Proof. unfold coerce_object. destruct v; calm; apply calm_catch; intros; calm. Qed.
  Lemma calm_enum_unwrap n v : calm (enum_unwrap P n v).
  Proof. revert v. induction n; intros v; destruct v; cbn [enum_unwrap]; calm; try discriminate. apply IHn. Qed.
  Lemma calm_enum_value c v : calm (enum_value P c v).
  Proof. unfold enum_value. destruct v; calm; try apply calm_enum_unwrap; apply calm_enum_call. Qed.
  Lemma calm_retype v s : calm (retype P W v s).
  Proof. destruct CP as (_ & _ & CC & _). unfold retype. destruct v; calm; try apply calm_prim; try apply calm_iter; try apply calm_mk_seq; try apply calm_enum_call; apply CC. Qed.
  Lemma calm_de_enum c v : calm (deserialize_enum P W c v).
  Proof.
    unfold deserialize_enum. destruct (enum_call P c v) as [a|e|] eqn:E; try discriminate.
    destruct e; try (rewrite <- E; apply calm_enum_call); calm; try apply calm_enum_call; apply calm_retype.
  Qed.
  Lemma calm_generic mg tv va i : calm (get_generic_arg mg tv va i).
  Proof. unfold get_generic_arg. calm. Qed.

  (** Code of deserialization: it calls no serializer, and [cls] only where the class is one of the
      program ([own]). *)
  Variable own : bool.
  Fixpoint decode (e : expr) : bool :=
    match e with
    | EToObj _ | ESeFn _ _ | EUnionSe _ _ | EClsSer _ _ | ELegacySe _ _ _ => false
    | EDeFn DtCls e _ _ => own && decode e
    | EVar _ | ENone | EReuse | EConv | EHasNum | EDefault _ | EAliases _ _ => true
    | EAttr e _ | EKey e _ | EIdx e _ | ESlice e _ | EGet e _ | ENotNone e | EIn _ e | EInAliases e _
    | EIsInst e _ | EBuiltin _ e | EDefDict _ e | ECoerce _ _ _ e | EEnumVal _ e | EDeEnum _ e | EStr e
    | EIso e | EFromIso _ e | ECtor _ e | EFn _ e | EClsDe _ _ e | EFromGen _ e _
    | EDeFn _ e _ _ | EUnionDe _ e | ELitDe _ e | ENum e => decode e
    | EAnd a b | EComp _ a b | ELegacyDe _ a b => decode a && decode b
    | EIf a b c | EMapComp a b c => decode a && decode b && decode c
    | ETuple l => forallb decode l
    end.

  Definition argd (a : dearg) : Prop := decode (da_var a) = true /\ (own = true \/ da_parent a = None).

  Lemma argd_inner a n v : argd a -> decode v = true -> argd (inner_arg a n v).
  Proof. intros [_ H] V. split; auto. Qed.
  Lemma argd_opt a : argd a -> argd (opt_inner a). Proof. auto. Qed.
  Lemma argd_targs a l : argd a -> argd (with_targs a l). Proof. auto. Qed.

  Lemma data_decode a t e : argd a -> da_data W a t = Ok e -> decode e = true.
  Proof.
    intros [V _] H. unfold da_data in H. destruct (da_inner a); [now injection H as <-|].
    destruct (da_iter a); [now injection H as <-|]. inv_bind H. destruct (has_none_arg t); now injection H as <-.
  Qed.
  Lemma prim_data_decode a t e : argd a -> prim_data W a t = Ok e -> decode e = true.
  Proof. intros A H. unfold prim_data in H. destruct (da_alias a); [eauto using data_decode|]. inv_bind H. now injection H as <-. Qed.
  Lemma data_or_decode a t e : argd a -> da_data_or W a t = Ok e -> decode e = true.
  Proof.
    intros A H. unfold da_data_or in H. destruct (da_iter a); [eauto using data_decode|]. inv_bind H. injection H as <-. apply A.
  Qed.
  Lemma and_all_decode l : forall e, forallb decode l = true -> and_all l = Ok e -> decode e = true.
  Proof.
    induction l as [|x [|y l] IH]; intros e D H; [discriminate| |].
    - cbn [and_all] in H. injection H as <-. now apply andb_prop in D as [D _].
    - change (and_all (x :: y :: l)) with (e' <- and_all (y :: l) ;; Ok (EAnd x e')) in H. inv_bind H. injection H as <-.
      cbn [forallb] in D. apply andb_prop in D as [D1 D2]. cbn [decode]. rewrite D1. now apply IH.
  Qed.
  Lemma mapM_decode {A} (f : A -> res expr) l : (forall x e, f x = Ok e -> decode e = true) -> forall es, mapM f l = Ok es -> forallb decode es = true.
  Proof.
    intros F. induction l as [|x l IH]; intros es H; cbn [mapM] in H; [now injection H as <-|].
    destruct (f x) as [e| |] eqn:E; try discriminate. cbn [bind] in H. destruct (mapM f l) as [r| |]; try discriminate. injection H as <-.
    cbn [forallb]. rewrite (F _ _ E). now rewrite IH.
  Qed.
  Lemma default_decode a t e e' : argd a -> decode e = true -> de_default P W a t e = Ok e' -> decode e' = true.
  Proof.
    intros A D H. unfold de_default in H. destruct (da_default a && negb (da_iter a)); [|now injection H as <-].
    match type of H with bind ?m _ = _ => destruct m as [x| |] eqn:E; try discriminate end. cbn [bind] in H. injection H as <-.
    assert (X : decode x = true).
    { destruct (da_flatten a).
      - destruct t; try discriminate. destruct (get_class P c); [|discriminate]. inv_bind E. eapply and_all_decode; [|exact E].
        eapply mapM_decode; [|eassumption]. cbn beta. intros f e0 F. destruct (f_alias f); inv_bind F; injection F as <-; apply A.
      - destruct (da_alias a); inv_bind E; injection E as <-; apply A. }
    cbn [decode]. now rewrite X, D.
  Qed.
  Lemma class_decode cfg a c e : argd a -> de_class W cfg a c = Ok e -> decode e = true.
  Proof.
    intros A H. unfold de_class in H. match type of H with bind ?m _ = _ => destruct m as [v| |] eqn:E; try discriminate end. cbn [bind] in H. injection H as <-.
    assert (V : decode v = true).
    { destruct (da_flatten a); [|eauto using data_decode]. destruct (da_iter a); injection E as <-; apply A. }
    destruct A as [_ [O|O]].
    - destruct (da_parent a); [destruct (s =? c)%string|]; cbn [decode]; now rewrite V, ?O.
    - rewrite O. cbn [decode]. exact V.
  Qed.
  Lemma prim_decode cfg a t e : argd a -> de_prim W cfg a t = Ok e -> decode e = true.
  Proof.
    intros A H. unfold de_prim in H. inv_bind H. match goal with X : prim_data _ _ _ = Ok _ |- _ => apply prim_data_decode in X; [|assumption]; rename X into D end.
    destruct (d_suppress cfg && negb (is_prim_sub t)), (is_float_class t); injection H as <-; cbn [decode]; rewrite ?D; auto.
  Qed.

  Ltac dd := match goal with A : argd ?a, X : da_data _ ?a _ = Ok ?y |- _ => rewrite (data_decode _ _ _ A X) end.

  Lemma de_ty_decode cfg t : forall a e, argd a -> de_ty P W cfg a t = Ok e -> decode e = true.
  Proof.
    assert (STEP : forall t, (forall a e, argd a -> de_gcore P W cfg a t = Ok e -> decode e = true) ->
      forall a e, argd a -> de_ty P W cfg a t = Ok e -> decode e = true).
    { intros t0 HC a e A H. rewrite de_ty_eq in H. 
      assert (R : de_rest P W cfg a t0 = Ok e -> decode e = true).
      { clear H. intros H. unfold de_rest in H. destruct t0; try discriminate H; try (
          match type of H with bind ?m _ = _ => destruct m as [x| |] eqn:E; try discriminate end; cbn [bind] in H;
          eapply default_decode; [exact A| |exact H]; eapply HC; [exact A|exact E]).
        unfold de_gen in H. cbv zeta in H.
        match type of H with bind ?m _ = _ => destruct m as [x| |] eqn:E; try discriminate end. cbn [bind] in H.
        assert (X : decode x = true).
        { destruct (find_de _ _ _), (da_deser a) as [[f|]|]; try (eapply class_decode; [|exact E]; now apply argd_targs).
          inv_bind E. injection E as <-. cbn [decode]. eapply data_decode; [|eassumption]. now apply argd_targs. }
        match type of H with bind ?m _ = _ => destruct m as [y| |] eqn:EY; try discriminate end. cbn [bind] in H.
        refine (default_decode _ _ _ _ (argd_targs _ _ A) _ H). refine (default_decode _ _ _ _ (argd_targs _ _ A) X EY). }
      destruct (find_de _ _ _), (da_deser a) as [[f|]|]; auto; inv_bind H; (eapply default_decode; [exact A| |exact H]); cbn [decode]; eapply data_decode; eassumption. }
    induction t using pytype_ind'; apply STEP; intros a ex A HE; cbn [de_gcore] in HE; try discriminate HE;
      try (eapply prim_decode; eassumption).
    - injection HE as <-. reflexivity.
    - eapply data_decode; eassumption.
    - destruct (is_opt (TUnion l)) eqn:O.
      + destruct l as [|x l]; [discriminate|]. inversion H as [|? ? Hx Hl]; subst. clear H.
        match type of HE with bind ?m _ = _ => destruct m as [y| |] eqn:EY; try discriminate end. cbn [bind] in HE. inv_bind HE. injection HE as <-.
        assert (DY : decode y = true).
        { destruct (da_iter a || da_inner a).
          - inv_bind EY. injection EY as <-. cbn [decode]. eapply data_decode; eassumption.
          - destruct (da_flatten a).
            + destruct x; try discriminate. destruct (get_class P c); [|discriminate]. inv_bind EY. eapply and_all_decode; [|exact EY].
              eapply mapM_decode; [|eassumption]. cbn beta. intros f e0 F. inv_bind F. injection F as <-. apply A.
            + inv_bind EY. destruct (da_alias a); [injection EY as <-; apply A|]. inv_bind EY. now injection EY as <-. }
        cbn [decode]. rewrite DY. match goal with X : de_ty _ _ _ _ _ = Ok _ |- _ => apply Hx in X; [rewrite X|now apply argd_opt] end. reflexivity.
      + inv_bind HE. injection HE as <-. cbn [decode]. eapply data_decode; eassumption.
    - inv_bind HE. inv_bind HE. injection HE as <-. cbn [decode]. dd. rewrite andb_true_r. eapply IHt; [|eassumption]. now apply argd_inner.
    - destruct k; inv_bind HE; inv_bind HE; injection HE as <-; cbn [decode]; dd; rewrite andb_true_r; (eapply IHt; [|eassumption]); now apply argd_inner.
    - inv_bind HE. inv_bind HE. injection HE as <-. cbn [decode]. dd. rewrite andb_true_r. eapply IHt; [|eassumption]. now apply argd_inner.
    - inv_bind HE. inv_bind HE. injection HE as <-. cbn [decode]. dd. rewrite !andb_true_r. eapply IHt; [|eassumption]. now apply argd_inner.
    - match type of HE with bind ?m _ = _ => destruct m as [x| |] eqn:EX; try discriminate end. cbn [bind] in HE.
      assert (DX : decode x = true). { destruct (is_num_key t1); [now injection EX as <-|]. eapply IHt1; [|eassumption]. now apply argd_inner. }
      inv_bind HE. inv_bind HE. match goal with X : de_ty _ _ _ _ t2 = Ok ?y |- _ => assert (DY : decode y = true) by (eapply IHt2; [|eassumption]; now apply argd_inner) end.
      match goal with X : da_data _ _ _ = Ok ?y |- _ => assert (DZ : decode y = true) by (eapply data_decode; eassumption) end.
      destruct k; injection HE as <-; cbn [decode]; now rewrite DX, DY, DZ.
    - destruct l as [|x l]; [discriminate|]. inv_bind HE. match goal with X : da_data _ _ _ = Ok ?y |- _ => assert (DZ : decode y = true) by (eapply data_decode; eassumption) end.
      match type of HE with bind ?m _ = _ => destruct m as [es| |] eqn:EX; try discriminate end. cbn [bind] in HE. injection HE as <-. cbn [decode].
      revert es EX. generalize 0. induction H as [|y r Hy Hr IH]; intros n es EX; cbn [mapMi_from] in EX; [now injection EX as <-|].
      inv_bind EX. inv_bind EX. injection EX as <-. cbn [forallb]. erewrite IH by eassumption. rewrite andb_true_r. eapply Hy; [|eassumption]. now apply argd_inner.
    - inv_bind HE. inv_bind HE. injection HE as <-. cbn [decode]. dd. rewrite andb_true_r. eapply IHt; [|eassumption]. now apply argd_inner.
    - destruct b as [k|k|k| | |]; try (destruct k; try discriminate); try (eapply data_decode; eassumption);
        inv_bind HE; injection HE as <-; cbn [decode]; eapply data_decode; eassumption.
    - inv_bind HE. injection HE as <-. cbn [decode]. eapply prim_data_decode; eassumption.
    - eapply class_decode; eassumption.
    - destruct (c_tvars (d_cls cfg)); [|discriminate]. inv_bind HE. injection HE as <-. cbn [decode]. eapply data_decode; eassumption.
    - inv_bind HE. injection HE as <-. cbn [decode]. eapply data_decode; eassumption.
    - inv_bind HE. injection HE as <-. cbn [decode]. dd; reflexivity.
    - inv_bind HE. injection HE as <-. cbn [decode]. dd; reflexivity.
    - eapply IHt; eassumption.
  Qed.

  Lemma render_decode cfg a t e : argd a -> de_render P W cfg a t = Ok e -> decode e = true.
  Proof.
    intros A H. unfold de_render in H.
    assert (N : de_ty P W cfg a t = Ok e -> decode e = true) by (apply de_ty_decode; exact A).
    destruct (d_legacy cfg); [|auto]. destruct (da_deser a); [auto|]. destruct (find_de _ _ _); [auto|].
    destruct t; inv_bind H; inv_bind H; injection H as <-; cbn [decode];
      match goal with X : de_ty _ _ _ ?a _ = Ok _, Y : da_data_or _ ?a _ = Ok _ |- _ =>
        rewrite (de_ty_decode _ _ a _ A X), (data_or_decode a _ _ A Y) end; reflexivity.
  Qed.

  (** ** Evaluation *)
  Section Eval.
    Variables (call : callreq -> res pyval) (cx : ctx).
    (** The calls that code of deserialization makes *)
    Definition de_req (q : callreq) : Prop :=
      match q with
      | QDe d _ _ _ dn _ _ _ => (exists c, get_class P c = Some d) /\ forall h v, dn = Some h -> calm (h v)
      | QUnionDe d _ _ _ dn => calm_class d /\ forall h v, dn = Some h -> calm (h v)
      | QFromObj _ _ _ _ dn => forall h v, dn = Some h -> calm (h v)
      | _ => False
      end.
    Hypothesis Hcall : forall q, de_req q -> fine (call q).
    Hypothesis Hown : own = true -> exists c, get_class P c = Some (x_cls cx).
    Hypothesis Hcls : calm_class (x_cls cx).
    Hypothesis Hfns : forall f g v, fn_lookup cx f = Some (GFun g) -> calm (g v).
    Hypothesis Hdn : forall h v, x_dn cx = Some h -> calm (h v).

    Lemma calm_des n s t v : nth_opt (class_des P (c_class_de (x_cls cx))) n = Some s -> calm (cd_fn s t v).
    Proof.
      intros H. assert (I : In s (class_des P (c_class_de (x_cls cx)))).
      { clear -H. revert n H. induction (class_des _ _) as [|x l IH]; intros [|n] H; cbn [nth_opt] in H; try discriminate; [injection H as ->; now left|right; eauto]. }
      unfold class_des in I. apply in_app_or in I as [I|I].
      - destruct CP as (_ & D & _). rewrite Forall_forall in D. now apply D.
      - destruct (c_class_de (x_cls cx)) eqn:E; [|contradiction]. destruct I as [<-|[]]. destruct Hcls as (_ & _ & D & _). eapply D; eassumption.
    Qed.
    Lemma calm_default f : calm (default_of cx f).
    Proof.
      unfold default_of. destruct (find _ _) as [fd|] eqn:F; [|calm]. apply find_some in F as [F _].
      destruct Hcls as (_ & _ & _ & D). rewrite Forall_forall in D. destruct (D _ F) as [_ D']. unfold default_value.
      destruct (f_default fd) as [[v|r]|]; [apply calm_ok|now apply D'|calm].
    Qed.
    Lemma calm_lits l : calm (render_literal_de l). Proof. unfold render_literal_de. calm. Qed.

    Ltac fb := apply fine_bind; [|intros].
    Ltac cf := apply calm_fine.
    Lemma eval_fine : forall e rho, decode e = true -> fine (eval P W call cx rho e).
    Proof.
      induction e using expr_ind'; intros rho D; cbn [decode] in D; try discriminate D; cbn [eval];
        try (fb; [solve [auto]|]);
        try (cf; first [apply calm_ok|apply calm_getattr|apply calm_getitem|apply calm_getidx|apply calm_slice|apply calm_getopt|apply calm_option; discriminate|apply calm_default]; fail).
      - fb; [cf; apply calm_option; discriminate|]. cf. apply calm_get_aliases.
      - apply andb_prop in D as [D D3]. apply andb_prop in D as [D1 D2]. fb; [now apply IHe1|].
        destruct (truthy _ _); [now apply IHe2|now apply IHe3].
      - fb; cf; [apply calm_py_in|apply calm_ok].
      - fb; cf; [apply calm_exists_aliases|apply calm_ok].
      - apply andb_prop in D as [D1 D2]. fb; [now apply IHe1|]. destruct (truthy _ _); [now apply IHe2|cf; apply calm_ok].
      - fb; cf; [apply calm_resolve|apply calm_ok].
      - apply andb_prop in D as [D1 D2]. fb; [now apply IHe2|]. fb; [cf; apply calm_iter|]. fb; [|cf; apply calm_mk_seq].
        apply fine_mapM. intros x. now apply IHe1.
      - apply andb_prop in D as [D D3]. apply andb_prop in D as [D1 D2]. fb; [now apply IHe3|]. fb; [cf; apply calm_items|].
        fb; [|fb; cf; [apply calm_mk_map|apply calm_ok]]. apply fine_mapM. intros x. cbv zeta.
        fb; [now apply IHe1|]. fb; [now apply IHe2|]. cf. calm.
      - fb; [|cf; apply calm_ok]. apply fine_mapM_in. rewrite forallb_forall in D. rewrite Forall_forall in *. intros x Hx. apply H; auto.
      - cf. destruct b; calm; try apply calm_iter; try apply calm_mk_seq; apply calm_counter.
      - destruct (_ || _); [|cf; calm]. fb; [auto|]. cf. calm.
      - fb; [cf; apply calm_resolve|]. fb; [auto|]. cf. apply calm_coerce.
      - fb; [cf; apply calm_resolve|]. fb; [auto|]. cf. calm. apply calm_enum_value.
      - fb; [cf; apply calm_resolve|]. fb; [auto|]. cf. calm. apply calm_de_enum.
      - cf. calm.
      - fb; [cf; apply calm_resolve|]. fb; [auto|]. cf. destruct a; calm. destruct CP as (_ & _ & _ & CI). apply CI.
      - fb; [cf; apply calm_resolve|]. fb; [auto|]. cf. apply calm_ctor.
      - destruct (fn_lookup cx f) as [[s|g]|] eqn:F; [cf; calm| |cf; calm]. fb; [auto|]. cf. eapply Hfns; eassumption.
      - fb; [cf; apply calm_resolve|]. fb; [auto|]. destruct (nth_opt (class_des P (c_class_de (x_cls cx))) n) as [s|] eqn:NT; cbn [of_option bind]; [|cf; calm].
        cf. eapply calm_des; eassumption.
      - apply andb_prop in D as [D1 D2]. fb; [cf; apply calm_resolve|]. fb; [now apply IHe1|].
        destruct (c_deserializer (x_cls cx)) as [g|] eqn:L; [|cf; calm].
        destruct Hcls as (_ & G & _). specialize (G _ a a0 L).
        destruct (g a a0) as [r|x|] eqn:E; [cf; calm| |cf; discriminate]. destruct x; try (now apply IHe2); cf; exact G.
      - fb; [cf; apply calm_generic|]. fb; [auto|]. apply Hcall. exact Hdn.
      - destruct t as [|t].
        + apply andb_prop in D as [D1 D2]. cbn [bind]. fb; [auto|]. apply Hcall. split; [now apply Hown|exact Hdn].
        + destruct (resolve P (x_g cx) t) as [t'|x|] eqn:R; cbn [bind].
          * destruct t'; try (cf; calm; fail). destruct (get_class P c) eqn:G; cbn [of_option bind]; [|cf; calm].
            fb; [auto|]. apply Hcall. split; [eauto|exact Hdn].
          * cf. intros y Hy. injection Hy as ->. now apply calm_resolve in R.
          * cf. discriminate.
      - apply Hcall. split; [exact Hcls|exact Hdn].
      - destruct (literal_args P cx f); [|cf; calm]. fb; [cf; apply calm_lits|]. fb; [auto|]. cf. calm.
      - destruct (x_dn cx) as [h|] eqn:X; [|cf; calm]. fb; [auto|]. cf. now apply Hdn.
    Qed.
  End Eval.
End Exc.

Section Run.
  Variables (P : program) (W : world) (K : list (tagging * pytype)).
  Hypothesis CP : calm_program P W.

  Ltac calm :=
    repeat first
      [ apply calm_ok | (apply calm_raise; discriminate) | (apply calm_option; discriminate)
      | match goal with |- calm (bind _ _) => apply calm_bind; [|intros] end
      | match goal with |- calm (mapM _ _) => apply calm_mapM; intros end
      | match goal with |- calm (foldM _ _ _) => apply calm_foldM; intros end
      | match goal with |- calm (match ?x with _ => _ end) => destruct x end
      | match goal with |- calm (if ?x then _ else _) => destruct x end
      | assumption ].

  (** ** Rendering raises no UserError *)
  Lemma calm_lit s : calm (lit s). Proof. unfold lit. calm. Qed.
  Lemma calm_conv c n r : calm (conv W c n r). Proof. unfold conv. calm. Qed.
  Lemma calm_key a : calm (da_key W a).
  Proof. unfold da_key. apply calm_bind; [apply calm_conv|intros; apply calm_lit]. Qed.
  Lemma calm_data a t : calm (da_data W a t). Proof. unfold da_data. calm. apply calm_key. Qed.
  Lemma calm_data_or a t : calm (da_data_or W a t). Proof. unfold da_data_or. calm; [apply calm_data|apply calm_key]. Qed.
  Lemma calm_alias_lits a n : calm (alias_lits a n). Proof. unfold alias_lits. apply calm_mapM. intros. apply calm_lit. Qed.
  Lemma calm_prim_data a t : calm (prim_data W a t). Proof. unfold prim_data. destruct (da_alias a); [apply calm_data|]. apply calm_bind; [apply calm_alias_lits|intros; calm]. Qed.
  Lemma calm_and_all l : calm (and_all l).
  Proof.
    induction l as [|x [|y l] IH]; [cbn; calm|cbn; calm|].
    change (and_all (x :: y :: l)) with (e' <- and_all (y :: l) ;; Ok (EAnd x e')). calm.
  Qed.
  Lemma calm_de_default a t e : calm (de_default P W a t e).
  Proof.
    unfold de_default. destruct (da_default a && negb (da_iter a)); [|calm]. apply calm_bind; [|intros; calm].
    destruct (da_flatten a).
    - destruct t; calm; try apply calm_lit; apply calm_and_all.
    - destruct (da_alias a); calm; [apply calm_key|apply calm_alias_lits].
  Qed.
  Lemma calm_de_class cfg a c : calm (de_class W cfg a c).
  Proof. unfold de_class. calm. apply calm_data. Qed.
  Lemma calm_de_prim cfg a t : calm (de_prim W cfg a t).
  Proof. unfold de_prim. apply calm_bind; [apply calm_prim_data|intros; calm]. Qed.

  Ltac rend := repeat first
    [ apply calm_data | apply calm_data_or | apply calm_prim_data | apply calm_de_class | apply calm_de_prim | apply calm_de_default
    | apply calm_key | apply calm_lit | apply calm_and_all | apply calm_alias_lits | progress calm ].

  Lemma calm_de_ty cfg t : forall a, calm (de_ty P W cfg a t).
  Proof.
    assert (STEP : forall t, (forall a, calm (de_gcore P W cfg a t)) -> forall a, calm (de_ty P W cfg a t)).
    { intros t0 H a. rewrite de_ty_eq. assert (R : calm (de_rest P W cfg a t0)).
      { unfold de_rest. destruct t0; try (apply calm_bind; [apply H|intros; apply calm_de_default]).
        unfold de_gen. cbv zeta. apply calm_bind; [|intros; apply calm_bind; intros; apply calm_de_default].
        destruct (find_de _ _ _), (da_deser a) as [[?|]|]; rend. }
      destruct (find_de _ _ _), (da_deser a) as [[?|]|]; auto; rend. }
    induction t using pytype_ind'; apply STEP; intros a; cbn [de_gcore]; try (rend; fail).
    - destruct (is_opt (TUnion l)).
      + destruct l as [|x l]; [calm|]. inversion H as [|? ? Hx Hl]; subst. apply calm_bind.
        * destruct (da_iter a || da_inner a); [rend|]. destruct (da_flatten a); [destruct x; rend|]. destruct (da_alias a); rend.
        * intros. apply calm_bind; [apply Hx|intros; calm].
      + rend.
    - apply calm_bind; [apply IHt|intros; rend].
    - destruct k; (apply calm_bind; [apply IHt|intros; rend]).
    - apply calm_bind; [apply IHt|intros; rend].
    - apply calm_bind; [apply IHt|intros; rend].
    - apply calm_bind; [destruct (is_num_key t1); [calm|apply IHt1]|]. intros. apply calm_bind; [apply IHt2|intros; rend].
    - destruct l as [|x l]; [calm|]. apply calm_bind; [rend|]. intros e. apply calm_bind; [|intros; calm].
      generalize 0. induction H as [|y r Hy Hr IH]; intros n; cbn [mapMi_from]; [calm|]. apply calm_bind; [apply Hy|]. intros. apply calm_bind; [apply IH|intros; calm].
    - apply calm_bind; [rend|]. intros e. apply calm_bind; [apply IHt|intros; calm].
    - apply IHt.
  Qed.

  Lemma calm_de_render cfg a t : calm (de_render P W cfg a t).
  Proof.
    unfold de_render. cbv zeta. destruct (d_legacy cfg), (da_deser a), (find_de P (d_class_de cfg) t); try apply calm_de_ty.
    destruct t; (apply calm_bind; [apply calm_de_ty|intros; apply calm_bind; [apply calm_data_or|intros; calm]]).
  Qed.
  Lemma calm_known n : forall d, calm (known_fields P W n d).
  Proof.
    induction n as [|n IH]; intros d; cbn [known_fields]; destruct (c_transparent d); calm; try apply calm_conv. apply IH.
  Qed.
  Lemma calm_defields d : calm_class d -> calm (defields d).
  Proof.
    intros (_ & _ & _ & F). unfold defields. apply calm_mapM_in. eapply Forall_impl; [|exact F]. intros f [_ D].
    apply calm_bind; [unfold check_field; calm|]. intros. apply calm_bind; [|intros; calm].
    unfold field_skip. apply calm_bind; [|intros; calm]. destruct (flag _ _); [|calm].
    destruct (f_default f) as [[v|r]|]; [calm| |calm]. apply calm_bind; [now apply D|intros; calm].
  Qed.
  Lemma calm_mapMi {A B} (f : nat -> A -> res B) l : (forall i a, calm (f i a)) -> forall n, calm (mapMi_from f n l).
  Proof. intros H. induction l; intros n; cbn [mapMi_from]; [apply calm_ok|]. repeat (apply calm_bind; auto; intros). apply calm_ok. Qed.
  Lemma calm_render_de d named : calm_class d -> calm (render_de P W d named).
  Proof.
    intros C. unfold render_de. destruct named.
    - unfold render_from_dict. apply calm_bind; [now apply calm_defields|]. intros all. cbv zeta. destruct (c_transparent d).
      + destruct (filter _ _), (force_kw false all); calm. apply calm_de_render.
      + apply calm_bind; [apply calm_known|]. intros kn. apply calm_bind.
        * apply calm_mapMi. intros i f. destruct (is_flat_dict_field f); [calm|]. apply calm_bind.
          -- destruct (flat_child f); [|calm]. destruct (get_class P s); calm. apply calm_known.
          -- intros pv. apply calm_bind; [apply calm_de_render|]. intros e. calm. apply calm_key.
        * intros l. calm.
    - unfold render_from_iter. apply calm_bind; [now apply calm_defields|]. intros all. cbv zeta. destruct (c_transparent d).
      + destruct (filter _ _); calm. apply calm_de_render.
      + apply calm_bind; [apply calm_mapMi; intros; apply calm_bind; [apply calm_de_render|intros; calm]|intros; calm].
  Qed.
  Lemma calm_render_union d l : calm (render_union_de P W d l).
  Proof. unfold render_union_de. apply calm_mapM. intros. apply calm_bind; [apply calm_de_ty|intros; calm]. Qed.

  (** ** Calls *)
  Lemma calm_construct d pos kws : calm_class d -> calm (construct P W d pos kws).
  Proof.
    intros (PO & _ & _ & F). unfold construct. destruct (bind_pos _ _); [|calm]. destruct (_ && _); [calm|].
    destruct (no_dup_args _ _ _); [|calm]. apply calm_bind; [|intros; apply PO].
    unfold init_fields. apply calm_bind; [|intros; calm]. apply calm_mapM_in. eapply Forall_impl; [|exact F]. intros f [_ D].
    assert (X : forall r, default_value f = Some r -> calm r).
    { unfold default_value. intros r. destruct (f_default f) as [[v|r0]|]; [|intros E; injection E as <-; now apply D|discriminate].
      intros E. injection E as <-. calm. }
    destruct (f_init f); [destruct (slookup (f_name f) _); [calm|]|]; (destruct (default_value f); [apply calm_bind; [now apply X|intros; calm]|calm]).
  Qed.
  Lemma class_calm c d : get_class P c = Some d -> calm_class d.
  Proof. intros G. destruct CP as [F _]. rewrite Forall_forall in F. apply F. now apply find_class_id in G as [_ G]. Qed.
  Lemma wrapper_calm n t tg : calm_class (wrapper P n t tg).
  Proof.
    split; [intros; calm|]. split; [discriminate|]. split; [discriminate|]. constructor; [split; discriminate|constructor].
  Qed.
  Lemma fine_ctor c d pos kws : get_class P c = Some d -> fine P W (construct_user P W d pos kws).
  Proof.
    intros G x. unfold construct_user. destruct (construct P W d pos kws) as [v|e|] eqn:E; cbn [catch]; try discriminate.
    intros H. injection H as <-. now exists c, d, pos, kws.
  Qed.
  Lemma fns_calm d f g v : calm_class d -> slookup f (rev (de_fns d)) = Some (GFun g) -> calm (g v).
  Proof.
    intros (_ & _ & _ & F) H. apply slookup_In in H. rewrite <- in_rev in H. unfold de_fns in H.
    apply in_concat in H as (l & Hl & H). apply in_map_iff in Hl as (fd & <- & Hf).
    rewrite Forall_forall in F. destruct (F _ Hf) as [D _].
    destruct (f_deserializer fd) as [[|h]|] eqn:E; [| |contradiction]; destruct H as [H|[]]; injection H as <- <-; [calm|now apply D].
  Qed.

  Definition hook_calm (dn : option numhook) : Prop := forall h v, dn = Some h -> calm (h v).

  Section Body.
    Variable call : callreq -> res pyval.
    Hypothesis Hcall : forall q, de_req P q -> fine P W (call q).

    Lemma de_fine d re dn mg mgtv vta own e rho : (own = true -> exists c, get_class P c = Some d) -> calm_class d -> hook_calm dn ->
      decode own e = true -> fine P W (eval P W call (de_ctx P d re dn mg mgtv vta) rho e).
    Proof.
      intros O C N D. eapply eval_fine; eauto. intros f g v. apply fns_calm. exact C.
    Qed.

    Definition stmt_code (s : dstmt) : bool := match s with DsExtra _ => true | DsField _ _ e _ => decode true e end.
    Definition body_code (b : debody) : bool :=
      match b with
      | DbDict _ _ l _ => forallb stmt_code l
      | DbTransparent _ _ e _ => decode true e
      | DbIter l _ => forallb (fun xe => decode true (snd xe)) l
      end.
    Lemma mapMi_code {A B} (f : nat -> A -> res B) (p : B -> bool) l : (forall i a b, f i a = Ok b -> p b = true) ->
      forall n bs, mapMi_from f n l = Ok bs -> forallb p bs = true.
    Proof.
      intros F. induction l as [|x l IH]; intros n bs H; cbn [mapMi_from] in H; [now injection H as <-|].
      destruct (f n x) as [e| |] eqn:E; try discriminate. cbn [bind] in H. destruct (mapMi_from f (S n) l) as [r| |] eqn:R; try discriminate. injection H as <-.
      cbn [forallb]. rewrite (F _ _ _ E). eauto.
    Qed.
    Lemma body_decode d named b : render_de P W d named = Ok b -> body_code b = true.
    Proof.
      intros H. unfold render_de in H. destruct named.
      - unfold render_from_dict in H. destruct (defields d) as [all| |]; try discriminate. cbn [bind] in H. cbv zeta in H. destruct (c_transparent d).
        + destruct (filter renderable all), (force_kw false all); try discriminate. inv_bind H. injection H as <-. cbn [body_code].
          eapply render_decode; [|eassumption]. split; [reflexivity|now left].
        + inv_bind H. match type of H with bind ?m _ = _ => destruct m as [l| |] eqn:L; try discriminate end. cbn [bind] in H.
          destruct (check_args _ _); [|discriminate]. injection H as <-. cbn [body_code].
          eapply mapMi_code; [|exact L]. cbn beta. intros i f st Hs. destruct (is_flat_dict_field f); [now injection Hs as <-|].
          match type of Hs with bind ?m _ = _ => destruct m as [pv| |] eqn:PV; try discriminate end. cbn [bind] in Hs. inv_bind Hs.
          assert (V : decode true (snd pv) = true).
          { destruct (flat_child f); [destruct (get_class P s); [inv_bind PV; injection PV as <-; reflexivity|discriminate]|injection PV as <-; reflexivity]. }
          match goal with X : de_render _ _ _ _ _ = Ok ?e |- _ => assert (E : decode true e = true) by (eapply render_decode; [|exact X]; split; [exact V|now left]) end.
          destruct (da_default _); [now injection Hs as <-|]. inv_bind Hs. now injection Hs as <-.
      - unfold render_from_iter in H. destruct (defields d) as [all| |]; try discriminate. cbn [bind] in H. cbv zeta in H. destruct (c_transparent d).
        + destruct (filter renderable all); try discriminate. inv_bind H. injection H as <-. cbn [body_code].
          eapply render_decode; [|eassumption]. split; [reflexivity|now left].
        + match type of H with bind ?m _ = _ => destruct m as [l| |] eqn:L; try discriminate end. cbn [bind] in H. injection H as <-. cbn [body_code].
          eapply mapMi_code; [|exact L]. cbn beta. intros i f st Hs. inv_bind Hs. injection Hs as <-. cbn [snd].
          eapply render_decode; [|eassumption]. split; [reflexivity|now left].
    Qed.

    Lemma calm_items_or v : calm (items_or_empty P v). Proof. unfold items_or_empty. destruct v; calm; apply calm_items. Qed.
    Lemma calm_project p v : calm (project_flat P p v). Proof. unfold project_flat. destruct v; calm; try apply calm_items. Qed.

    Ltac fb := apply fine_bind; [|intros].
    Ltac cf := apply calm_fine.
    Lemma body_fine c d re dn mg mgtv vta b data : get_class P c = Some d -> hook_calm dn -> body_code b = true ->
      fine P W (run_de_body P W call (de_ctx P d re dn mg mgtv vta) b data).
    Proof.
      intros G N B. pose proof (class_calm _ _ G) as C.
      assert (EV : forall e rho, decode true e = true -> fine P W (eval P W call (de_ctx P d re dn mg mgtv vta) rho e)) by (intros; eapply de_fine; eauto).
      assert (CT : forall vals args, fine P W (run_ctor P W (de_ctx P d re dn mg mgtv vta) vals args)).
      { intros. unfold run_ctor. destruct (split_args vals args) as [pos kws]. eapply fine_ctor. exact G. }
      destruct b as [deny extra l args|x named e arg|l args]; cbn [body_code] in B; cbn [run_de_body].
      - fb. { cf. destruct deny; [|calm]. apply calm_bind; [apply calm_items_or|intros; calm]. }
        fb. { cf. destruct extra; [|calm]. apply calm_bind; [apply calm_items_or|intros; calm]. }
        fb; [|apply CT]. apply fine_foldM. rewrite Forall_forall. rewrite forallb_forall in B. intros s Hs vals. specialize (B _ Hs).
        destruct s as [x|x proj e mi]; cbn [run_dstmt stmt_code] in *; [cf; calm|].
        fb. { cf. destruct proj; [|calm]. apply calm_bind; [apply calm_project|intros; calm]. }
        specialize (EV e a1 B). intros y. destruct mi as [k|], (eval P W call _ a1 e) as [v|ex|] eqn:E; try discriminate;
          [destruct ex; try discriminate|]; intros Hy; injection Hy as ->; now apply EV.
      - cbv zeta. fb; [now apply EV|apply CT].
      - fb; [|apply CT]. apply fine_mapM_in. rewrite Forall_forall. rewrite forallb_forall in B. intros s Hs. fb; [apply EV; auto|cf; calm].
    Qed.

    Lemma union_calm cx arms data : calm (run_union_de P W call cx arms data).
    Proof. induction arms as [|[t e] r IH]; cbn [run_union_de]; [calm|]. apply calm_catch. intros. exact IH. Qed.

    Lemma first_de_calm t s v : first_de P t = Some s -> calm (cd_fn s t v).
    Proof. intros H. apply find_some in H as [H _]. destruct CP as (_ & D & _). rewrite Forall_forall in D. now apply D. Qed.

    Lemma from_obj_fine t mg o named reuse dn : hook_calm dn -> fine P W (from_obj_body P W call t mg o named reuse dn).
    Proof.
      intros N. unfold from_obj_body. cbv zeta.
      destruct (first_de P t) as [s|] eqn:S; [cf; now apply first_de_calm|].
      assert (TH : forall a e, fine P W (call (QFromObj (TagExternal, a) e named reuse dn))) by (intros; apply Hcall; exact N).
      destruct CP as (_ & _ & CT & CI).
      destruct t; try (cf; first [now apply calm_ctor|now apply CI|calm; fail]); try (fb; [cf; apply calm_iter|]).
      - destruct p; try (cf; now apply calm_ctor). unfold from_float. destruct dn as [h|] eqn:E; cf; [now apply N|now apply calm_ctor].
      - destruct p; try (cf; now apply calm_ctor). unfold from_float. destruct dn as [h|] eqn:E; cf; [now apply N|now apply calm_ctor].
      - destruct l; [cf; now apply calm_ctor|]. destruct o; try apply TH. cf; calm.
      - fb; [apply fine_mapM; auto|cf; calm].
      - fb; [apply fine_mapM; auto|cf; apply calm_mk_seq].
      - fb; [apply fine_mapM; auto|cf; calm].
      - fb; [cf; apply calm_items|]. fb; [apply fine_mapM; intros; fb; [apply TH|cf; calm]|]. fb; [cf; apply calm_mk_map|cf; calm].
      - fb; [cf; apply calm_items|]. fb; [apply fine_mapM; intros; fb; [apply TH|]; fb; [apply TH|cf; calm]|]. fb; [cf; apply calm_mk_map|cf; calm].
      - fb; [apply fine_mapMi; intros; fb; [cf; calm|apply TH]|cf; calm].
      - cf; calm.
      - cf. destruct b as [k|k|k| | |]; try destruct k; calm; try apply calm_iter; try apply calm_mk_seq; apply calm_counter.
      - destruct (get_class P c) eqn:G; cbn [of_option bind]; [|cf; calm]. apply Hcall. split; [eauto|exact N].
    Qed.
  End Body.

  Lemma fine_bind_eq {A B} (m : res A) (k : A -> res B) : calm m -> (forall a, m = Ok a -> fine P W (k a)) -> fine P W (bind m k).
  Proof. intros M F x. destruct m; cbn [bind]; [now apply F| |discriminate]. intros E. exfalso. apply (M x). now injection E as ->. Qed.

  Lemma run_fine n : forall q, de_req P q -> fine P W (run P W K n q).
  Proof.
    induction n as [|n IH]; intros q Q; [discriminate|]. cbn [run].
    destruct q as [d o na re co sk|d da na re dn mg mgtv vta|d f o re co sk|d f da re dn|o na re co sk c|[tg t] o na re dn]; cbn [de_req] in Q; try contradiction; cbn [step].
    - destruct Q as [[c G] N]. apply fine_bind_eq; [apply calm_render_de; eapply class_calm; eassumption|]. intros b R.
      apply body_fine with (c := c); auto. eapply body_decode. exact R.
    - destruct Q as [C N]. apply fine_bind_eq; [calm|]. intros l Hl. apply fine_bind_eq; [apply calm_render_union|]. intros arms R. apply calm_fine, union_calm.
    - destruct (type_is o (unalias t)); [apply calm_fine; calm|]. destruct (_ && _).
      + apply IH. split; [apply wrapper_calm|exact Q].
      + intros x. destruct (from_obj_body _ _ _ _ _ _ _ _ _) as [v|e|] eqn:E; cbn [catch]; try discriminate.
        destruct e; try discriminate. intros H. injection H as ->. apply (from_obj_fine (run P W K n) IH) in E; [|exact Q].
        destruct E as (c & d & pos & kws & G & X). exfalso. revert X. apply calm_construct. eapply class_calm; eassumption.
  Qed.

  (** ** C24 *)
  (** Serialization raises SerdeError only. *)
  Theorem C24_to_dict n o c reuse conv skip e : to_dict P W K n o c reuse conv skip = Raise e -> exists m, e = XSerde m.
  Proof.
    destruct n; [discriminate|]. cbn [to_dict run step]. unfold to_dict. cbn [run step]. destruct (to_obj_body _ _ _ _ _ _ _ _ _) as [v|x|]; cbn [catch]; try discriminate.
    intros H. injection H as <-. eauto.
  Qed.
  Theorem C24_to_tuple n o c reuse conv skip e : to_tuple P W K n o c reuse conv skip = Raise e -> exists m, e = XSerde m.
  Proof.
    destruct n; [discriminate|]. unfold to_tuple. cbn [run step]. destruct (to_obj_body _ _ _ _ _ _ _ _ _) as [v|x|]; cbn [catch]; try discriminate.
    intros H. injection H as <-. eauto.
  Qed.

  (** Deserialization raises SerdeError, or what the constructor of a class of the program raised. *)
  Lemma from_obj_exc n tg t o na reuse dn e : hook_calm dn -> is_union (unalias t) = false \/ is_opt (unalias t) = true ->
    run P W K n (QFromObj (tg, t) o na reuse dn) = Raise e -> (exists m, e = XSerde m) \/ ctor_exc P W e.
  Proof.
    intros N U. destruct n; [discriminate|]. cbn [run step]. destruct (type_is o (unalias t)); [discriminate|].
    replace (is_union (unalias t) && negb (is_opt (unalias t))) with false by (destruct U as [->| ->]; [reflexivity|now rewrite andb_false_r]).
    destruct (from_obj_body _ _ _ _ _ _ _ _ _) as [v|x|] eqn:E; cbn [catch]; try discriminate.
    destruct x; intros H; injection H as <-; eauto.
    right. apply (from_obj_fine (run P W K n) (run_fine n)) in E; assumption.
  Qed.
  Theorem C24_from_dict_partial n tg t o reuse dn e : hook_calm dn -> is_union (unalias t) = false \/ is_opt (unalias t) = true ->
    from_dict P W K n (tg, t) o reuse dn = Raise e -> (exists m, e = XSerde m) \/ ctor_exc P W e.
  Proof. apply from_obj_exc. Qed.
  Theorem C24_from_tuple_partial n tg t o reuse dn e : hook_calm dn -> is_union (unalias t) = false \/ is_opt (unalias t) = true ->
    from_tuple P W K n (tg, t) o reuse dn = Raise e -> (exists m, e = XSerde m) \/ ctor_exc P W e.
  Proof. apply from_obj_exc. Qed.

  (** A union argument: SerdeError even when a constructor raised, unless no code can be generated for
      the union. *)
  Lemma from_union_exc n tg t l o na reuse dn e : unalias t = TUnion l -> is_opt (TUnion l) = false -> fresh K tg (TUnion l) ->
    run P W K n (QFromObj (tg, t) o na reuse dn) = Raise e ->
    e = XSerde MUnionDe \/
    exists l', In (TUnion l') (iter_unions P (union_wrapper P K tg (TUnion l))) /\
      render_union_de P W (union_wrapper P K tg (TUnion l)) l' = Raise e.
  Proof.
    intros U NO F. destruct n; [discriminate|]. cbn [run step]. rewrite U, NO. destruct (type_is o (TUnion l)); [discriminate|].
    cbn [is_union negb andb union_args]. destruct n; [discriminate|]. cbn [run step]. 
    destruct (find_union_some P (union_wrapper P K tg (TUnion l)) "union_de" l) as (l' & -> & I).
    { rewrite union_wrapper_fresh by assumption. apply wrapper_union. }
    cbn [of_option bind]. destruct (render_union_de P W _ l') as [arms|x|] eqn:R; cbn [bind]; try discriminate.
    - intros H. left. clear -H. induction arms as [|[a x] r IH]; cbn [run_union_de] in H; [now injection H as <-|].
      destruct (run_arm _ _ _ _ _ _ _); cbn [catch] in H; try discriminate. auto.
    - intros H. injection H as ->. right. eauto.
  Qed.
  Theorem C24_from_dict_union_partial n tg t l o reuse dn e : unalias t = TUnion l -> is_opt (TUnion l) = false -> fresh K tg (TUnion l) ->
    from_dict P W K n (tg, t) o reuse dn = Raise e ->
    e = XSerde MUnionDe \/
    exists l', In (TUnion l') (iter_unions P (union_wrapper P K tg (TUnion l))) /\
      render_union_de P W (union_wrapper P K tg (TUnion l)) l' = Raise e.
  Proof. apply from_union_exc. Qed.
  Theorem C24_from_tuple_union_partial n tg t l o reuse dn e : unalias t = TUnion l -> is_opt (TUnion l) = false -> fresh K tg (TUnion l) ->
    from_tuple P W K n (tg, t) o reuse dn = Raise e ->
    e = XSerde MUnionDe \/
    exists l', In (TUnion l') (iter_unions P (union_wrapper P K tg (TUnion l))) /\
      render_union_de P W (union_wrapper P K tg (TUnion l)) l' = Raise e.
  Proof. apply from_union_exc. Qed.
End Run.

(** * Non-vacuity: a class whose __post_init__ rejects, a deserializer that raises. *)
Module ExcEx.
  Definition post (o : pyval) : res pyval :=
    match o with VObj _ (("x", VInt z) :: _) => if (z <? 0)%Z then Raise XValue else Ok o | _ => Ok o end.
  Definition A : classdef :=
    {| c_id := "A"; c_name := "A";
       c_fields := [fld "x" TInt; with_fns None (Some (FFun (fun _ => Raise XIndex))) (with_default (VInt 0) (fld "y" TInt))];
       c_mro := []; c_rename_all := None; c_reuse := true; c_conv := false;
       c_skip_if_default := false; c_skip_if_none := false; c_serializer := None; c_deserializer := None;
       c_tagging := TagExternal; c_check := TcStrict; c_ser_class_var := false; c_class_vars := [];
       c_transparent := false; c_class_ser := None; c_class_de := None; c_deny := false;
       c_tvars := None; c_post := post; c_hashable := false |}.
  Definition B : classdef := cls "B" [fld "a" (TList LList (TClass "A"))].
  Definition PA := prog [A; B] [].

  Lemma calm_PA : calm_program PA W0.
  Proof.
    split; [|split; [constructor|split]].
    - repeat constructor; try discriminate.
      + intros o e. cbn [c_post A]. unfold post. destruct o; try discriminate. destruct l as [|[k v] l]; try discriminate.
        destruct v; repeat (match goal with |- (match ?s with _ => _ end) <> _ => destruct s; try discriminate end).
      + intros g v H. cbn in H. injection H as <-. discriminate.
    - intros k v. destruct v; discriminate.
    - intros k v. destruct v; discriminate.
  Qed.
  Lemma no_hook : hook_calm None. Proof. intros h v H. discriminate. Qed.

  (** The constructor's ValueError escapes as it is, from a nested object too. *)
  Example C24_ex1 : from_dict PA W0 [] 9 (TagExternal, TClass "B") (dict [("a", vlist [dict [("x", VInt (-1))]])]) None None = Raise XValue.
  Proof. vm_compute. reflexivity. Qed.
  Example C24_ex2 : (exists m, XValue = XSerde m) \/ ctor_exc PA W0 XValue.
  Proof. eapply (C24_from_dict_partial PA W0 [] calm_PA); [apply no_hook|left|apply C24_ex1]; reflexivity. Qed.
  (** The IndexError of the deserializer is wrapped, and so is the TypeError of a wrong input. *)
  Example C24_ex3 : from_dict PA W0 [] 9 (TagExternal, TClass "A") (dict [("x", VInt 1); ("y", VInt 1)]) None None = Raise (XSerde (MWrap XIndex)).
  Proof. vm_compute. reflexivity. Qed.
  Example C24_ex4 : from_tuple PA W0 [] 9 (TagExternal, TClass "B") (VInt 3) None None = Raise (XSerde (MWrap XType)).
  Proof. vm_compute. reflexivity. Qed.
  Example C24_ex5 : to_dict PA W0 [] 9 (VObj "A" []) None None None false = Raise (XSerde (MWrap XAttr)).
  Proof. vm_compute. reflexivity. Qed.
  (** Inside a union the ValueError is lost. *)
  Definition U := TUnion [TClass "A"; TInt].
  Example C24_ex6 : from_dict PA W0 [(TagExternal, U)] 9 (TagExternal, U) (dict [("A", dict [("x", VInt (-1))])]) None None = Raise (XSerde MUnionDe).
  Proof. vm_compute. reflexivity. Qed.
  Example C24_ex7 : fresh [(TagExternal, U)] TagExternal U.
  Proof. intros k [<-|[]] _. reflexivity. Qed.
End ExcEx.

Print Assumptions C24_to_dict.
Print Assumptions C24_to_tuple.
Print Assumptions C24_from_dict_partial.
Print Assumptions C24_from_tuple_partial.
Print Assumptions C24_from_dict_union_partial.
Print Assumptions C24_from_tuple_union_partial.
