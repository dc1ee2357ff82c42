(** Containers are read element by element: C63. *)
From Coq Require Import String List ZArith Bool Lia.
From Verif Require Import Base PyVal PyType Program Compat Syntax SeRender DeRender Eval Facts Mono Spec Cover Depend SeRT DeRT Transport PropsSe PropsDe PropsUnion PropsField PropsBare Decide Ex.
Import ListNotations.
Open Scope string_scope.
Open Scope list_scope.

(** * Without generic classes, code does not depend on type arguments *)

Fixpoint nogen (e : expr) : Prop :=
  match e with
  | EFromGen _ _ _ => False
  | EVar _ | ENone | EReuse | EConv | EHasNum | EDefault _ | EAliases _ _ => True
  | EAttr e _ | EKey e _ | EIdx e _ | ESlice e _ | EGet e _ | ENotNone e | EIn _ e | EInAliases e _
  | EIsInst e _ | EBuiltin _ e | EDefDict _ e | ECoerce _ _ _ e | EEnumVal _ e | EDeEnum _ e | EStr e
  | EIso e | EFromIso _ e | ECtor _ e | EFn _ e | EClsSer _ e | EClsDe _ _ e
  | EDeFn _ e _ _ | EUnionDe _ e | ELitDe _ e | ENum e | EToObj e | ESeFn e _ | EUnionSe _ e => nogen e
  | EAnd a b | EComp _ a b | ELegacySe _ a b | ELegacyDe _ a b => nogen a /\ nogen b
  | EIf a b c | EMapComp a b c => nogen a /\ nogen b /\ nogen c
  | ETuple l => (fix all l := match l with [] => True | e :: r => nogen e /\ all r end) l
  end.
Lemma nogen_tuple l : nogen (ETuple l) <-> Forall nogen l.
Proof.
  induction l as [|x l IH]; [split; constructor|]. change (nogen (ETuple (x :: l))) with (nogen x /\ nogen (ETuple l)). rewrite IH. split.
  - intros [A B]. now constructor.
  - intros A. now inversion A.
Qed.

Lemma bind_same {A B} (m m' : res A) (k k' : A -> res B) : m = m' -> (forall a, m' = Ok a -> k a = k' a) -> bind m k = bind m' k'.
Proof. intros ->. destruct m'; cbn [bind]; auto. Qed.

Definition params (mg : option pytype) (tv va : option (list string)) (cx : ctx) : ctx :=
  mkCtx (x_cls cx) (x_g cx) (x_fns cx) (x_reuse cx) (x_conv cx) (x_skip cx) (x_dn cx) mg tv va.

Section Params.
  Variables (P : program) (W : world) (K : list (tagging * pytype)).
  Hypothesis Plain : forall c d, get_class P c = Some d -> c_tvars d = None.

  Section Eval.
    Variable call : callreq -> res pyval.
    Hypothesis Same : forall d v nm ro dn mg tv va mg' tv' va', c_tvars d = None ->
      call (QDe d v nm ro dn mg tv va) = call (QDe d v nm ro dn mg' tv' va').

    Lemma eval_params cx mg tv va : c_tvars (x_cls cx) = None -> forall e, nogen e -> forall rho,
      eval P W call cx rho e = eval P W call (params mg tv va cx) rho e.
    Proof.
      intros CT. induction e using expr_ind'; intros N rho; cbn [nogen] in N; try contradiction; cbn [eval]; try reflexivity;
        try (rewrite (IHe N rho); reflexivity).
      - destruct N as (A & B & C). rewrite (IHe1 A), (IHe2 B), (IHe3 C). reflexivity.
      - destruct N as (A & B). rewrite (IHe1 A), (IHe2 B). reflexivity.
      - destruct N as (A & B). rewrite (IHe2 B). apply bind_same; [reflexivity|]. intros y _. apply bind_same; [reflexivity|]. intros l _.
        apply bind_same; [|reflexivity]. apply Facts.mapM_ext. intros z _. apply IHe1; auto.
      - destruct N as (A & B & C). rewrite (IHe3 C). apply bind_same; [reflexivity|]. intros y _. apply bind_same; [reflexivity|]. intros l _.
        apply bind_same; [|reflexivity]. apply Facts.mapM_ext. intros z _. cbv zeta. rewrite (IHe1 A), (IHe2 B). reflexivity.
      - apply bind_same; [|reflexivity]. apply Facts.mapM_ext. intros z Hz. apply nogen_tuple in N. rewrite Forall_forall in H, N. apply H; auto.
      - destruct N as (A & B). rewrite (IHe1 A), (IHe2 B). reflexivity.
      - destruct N as (A & B). rewrite (IHe1 A), (IHe2 B). reflexivity.
      - cbn [params x_cls x_g x_reuse x_dn x_mg x_mgtv].
        match goal with |- bind ?m _ = _ => destruct m as [d| |] eqn:D; try reflexivity end. cbn [bind].
        rewrite (IHe N rho). apply bind_same; [reflexivity|]. intros y _. apply Same.
        destruct t as [|t]; [injection D as <-; exact CT|]. destruct (resolve P (x_g cx) t) as [t'| |]; try discriminate. cbn [bind] in D.
        destruct t'; try discriminate. destruct (get_class P c) as [d'|] eqn:G; [|discriminate]. injection D as <-. eauto.
    Qed.

    Lemma stmt_params cx mg tv va data ex s : c_tvars (x_cls cx) = None -> (forall x p e k, s = DsField x p e k -> nogen e) -> forall vals,
      run_dstmt P W call cx data ex vals s = run_dstmt P W call (params mg tv va cx) data ex vals s.
    Proof.
      intros CT N vals. destruct s as [x|x p e k]; [reflexivity|]. cbn [run_dstmt]. apply bind_same; [reflexivity|]. intros rho _.
      rewrite (eval_params cx mg tv va CT e (N _ _ _ _ eq_refl) rho). reflexivity.
    Qed.
    Definition plain_body (b : debody) : Prop :=
      match b with
      | DbDict _ _ l _ => forall x p e k, In (DsField x p e k) l -> nogen e
      | DbTransparent _ _ e _ => nogen e
      | DbIter l _ => forall x e, In (x, e) l -> nogen e
      end.
    Lemma foldM_same {A S} (f g : S -> A -> res S) l : (forall a s, In a l -> f s a = g s a) -> forall s, foldM f l s = foldM g l s.
    Proof. induction l as [|a l IH]; intros H s; [reflexivity|]. cbn [foldM]. rewrite H by now left. apply bind_same; [reflexivity|]. intros s' _. apply IH. intros; apply H. now right. Qed.
    Lemma body_params cx mg tv va b data : c_tvars (x_cls cx) = None -> plain_body b ->
      run_de_body P W call cx b data = run_de_body P W call (params mg tv va cx) b data.
    Proof.
      intros CT N. destruct b as [deny extra l args|x nm e arg|l args]; cbn [run_de_body plain_body] in *.
      - apply bind_same; [reflexivity|]. intros _ _. apply bind_same; [reflexivity|]. intros ex _. apply bind_same; [|reflexivity].
        apply foldM_same. intros s vals Is. apply stmt_params; [exact CT|]. intros x p e k ->. eauto.
      - cbv zeta. apply bind_same; [|reflexivity]. now apply eval_params.
      - apply bind_same; [|reflexivity]. apply Facts.mapM_ext. intros [x e] Ix. cbn [fst snd]. apply bind_same; [|reflexivity]. apply eval_params; eauto.
    Qed.
  End Eval.

  (** The code generated for a class without type parameters *)
  Section Render.
    Variable cfg : decfg.
    Hypothesis CT : c_tvars (d_cls cfg) = None.

    Lemma data_nogen a t e : nogen (da_var a) -> da_data W a t = Ok e -> nogen e.
    Proof.
      intros V E. unfold da_data in E. destruct (da_inner a); [now injection E as <-|]. destruct (da_iter a); [now injection E as <-|].
      inv_bind E. injection E as <-. now destruct (has_none_arg t).
    Qed.
    Lemma prim_data_nogen a t e : nogen (da_var a) -> prim_data W a t = Ok e -> nogen e.
    Proof. intros V E. unfold prim_data in E. destruct (da_alias a); [eapply data_nogen; eauto|]. inv_bind E. injection E as <-. exact I. Qed.
    Lemma and_all_nogen l : forall e, Forall nogen l -> and_all l = Ok e -> nogen e.
    Proof.
      induction l as [|x [|y l] IH]; intros e D H; [discriminate| |].
      - cbn [and_all] in H. injection H as <-. now inversion D.
      - change (and_all (x :: y :: l)) with (e' <- and_all (y :: l) ;; Ok (EAnd x e')) in H. inv_bind H. injection H as <-.
        inversion D; subst. split; auto.
    Qed.
    Lemma mapM_nogen {A} (f : A -> res expr) l : (forall x e, f x = Ok e -> nogen e) -> forall es, mapM f l = Ok es -> Forall nogen es.
    Proof. intros F es H. apply mapM_Ok in H. induction H; constructor; eauto. Qed.
    Lemma default_nogen a t e e' : nogen (da_var a) -> nogen e -> de_default P W a t e = Ok e' -> nogen e'.
    Proof.
      intros V D H. unfold de_default in H. destruct (da_default a && negb (da_iter a)); [|now injection H as <-].
      match type of H with bind ?m _ = _ => destruct m as [x| |] eqn:E; try discriminate end. cbn [bind] in H. injection H as <-.
      assert (X : nogen x).
      { destruct (da_flatten a).
        - destruct t; try discriminate. destruct (get_class P c); [|discriminate]. inv_bind E. eapply and_all_nogen; [|exact E].
          eapply mapM_nogen; [|eassumption]. cbn beta. intros f e0 F. destruct (f_alias f); inv_bind F; injection F as <-; exact V.
        - destruct (da_alias a); inv_bind E; injection E as <-; exact V. }
      cbn [nogen]. auto.
    Qed.
    Lemma class_nogen a c e : nogen (da_var a) -> de_class W cfg a c = Ok e -> nogen e.
    Proof.
      intros V H. unfold de_class in H. match type of H with bind ?m _ = _ => destruct m as [v| |] eqn:E; try discriminate end. cbn [bind] in H. injection H as <-.
      cbn [nogen]. destruct (da_flatten a); [|eauto using data_nogen]. injection E as <-. now destruct (da_iter a).
    Qed.
    Lemma prim_nogen a t e : nogen (da_var a) -> de_prim W cfg a t = Ok e -> nogen e.
    Proof.
      intros V H. unfold de_prim in H. inv_bind H. match goal with X : prim_data _ _ _ = Ok _ |- _ => apply prim_data_nogen in X; [|assumption]; rename X into D end.
      destruct (d_suppress cfg && negb (is_prim_sub t)), (is_float_class t); injection H as <-; cbn [nogen]; auto.
    Qed.
    Lemma de_ty_nogen t : forall a e, nogen (da_var a) -> de_ty P W cfg a t = Ok e -> nogen e.
    Proof.
      assert (STEP : forall t, (forall a e, nogen (da_var a) -> de_gcore P W cfg a t = Ok e -> nogen e) ->
        forall a e, nogen (da_var a) -> de_ty P W cfg a t = Ok e -> nogen e).
      { intros t0 HCo a e A H. rewrite de_ty_eq in H.
        assert (R : de_rest P W cfg a t0 = Ok e -> nogen e).
        { clear H. intros H. unfold de_rest in H. destruct t0; try discriminate H; try (
            match type of H with bind ?m _ = _ => destruct m as [x| |] eqn:E; try discriminate end; cbn [bind] in H;
            eapply default_nogen; [exact A| |exact H]; eapply HCo; [exact A|exact E]).
          unfold de_gen in H. cbv zeta in H.
          match type of H with bind ?m _ = _ => destruct m as [x| |] eqn:E; try discriminate end. cbn [bind] in H.
          assert (X : nogen x).
          { destruct (find_de _ _ _), (da_deser a) as [[f|]|]; try (eapply class_nogen; [|exact E]; exact A).
            inv_bind E. injection E as <-. cbn [nogen]. eapply data_nogen; [|eassumption]. exact A. }
          match type of H with bind ?m _ = _ => destruct m as [y| |] eqn:EY; try discriminate end. cbn [bind] in H.
          eapply default_nogen; [|eapply default_nogen; [|exact X|exact EY]|exact H]; exact A. }
        destruct (find_de _ _ _), (da_deser a) as [[f|]|]; auto; inv_bind H; (eapply default_nogen; [exact A| |exact H]); cbn [nogen]; eapply data_nogen; eassumption. }
      induction t using pytype_ind'; apply STEP; intros a ex A HE; cbn [de_gcore] in HE; try discriminate HE;
        try (eapply prim_nogen; eassumption).
      - injection HE as <-. exact I.
      - eapply data_nogen; eassumption.
      - destruct (is_opt (TUnion l)) eqn:O.
        + destruct l as [|x l]; [discriminate|]. inversion H as [|? ? Hx Hl]; subst. clear H.
          match type of HE with bind ?m _ = _ => destruct m as [y| |] eqn:EY; try discriminate end. cbn [bind] in HE. inv_bind HE. injection HE as <-.
          assert (DY : nogen y).
          { destruct (da_iter a || da_inner a).
            - inv_bind EY. injection EY as <-. cbn [nogen]. eapply data_nogen; eassumption.
            - destruct (da_flatten a).
              + destruct x; try discriminate. destruct (get_class P c); [|discriminate]. inv_bind EY. eapply and_all_nogen; [|exact EY].
                eapply mapM_nogen; [|eassumption]. cbn beta. intros f e0 F. inv_bind F. injection F as <-. exact A.
              + inv_bind EY. destruct (da_alias a); [injection EY as <-; exact A|]. inv_bind EY. injection EY as <-. exact I. }
          cbn [nogen]. split; [exact DY|]. split; [|exact I]. eapply Hx; [|eassumption]. exact A.
        + inv_bind HE. injection HE as <-. cbn [nogen]. eapply data_nogen; eassumption.
      - inv_bind HE. inv_bind HE. injection HE as <-. cbn [nogen]. split; [eapply IHt; [|eassumption]; exact I|eapply data_nogen; eassumption].
      - destruct k; inv_bind HE; inv_bind HE; injection HE as <-; cbn [nogen]; (split; [eapply IHt; [|eassumption]; exact I|eapply data_nogen; eassumption]).
      - inv_bind HE. inv_bind HE. injection HE as <-. cbn [nogen]. split; [eapply IHt; [|eassumption]; exact I|eapply data_nogen; eassumption].
      - inv_bind HE. inv_bind HE. injection HE as <-. cbn [nogen]. split; [eapply IHt; [|eassumption]; exact I|]. split; [exact I|eapply data_nogen; eassumption].
      - match type of HE with bind ?m _ = _ => destruct m as [x| |] eqn:EX; try discriminate end. cbn [bind] in HE.
        assert (DX : nogen x). { destruct (is_num_key t1); [injection EX as <-; exact I|]. eapply IHt1; [|eassumption]. exact I. }
        inv_bind HE. inv_bind HE. match goal with X : de_ty _ _ _ _ t2 = Ok ?y |- _ => assert (DY : nogen y) by (eapply IHt2; [|eassumption]; exact I) end.
        match goal with X : da_data _ _ _ = Ok ?y |- _ => assert (DZ : nogen y) by (eapply data_nogen; eassumption) end.
        destruct k; injection HE as <-; cbn [nogen]; auto.
      - destruct l as [|x l]; [discriminate|]. inv_bind HE. match goal with X : da_data _ _ _ = Ok ?y |- _ => assert (DZ : nogen y) by (eapply data_nogen; eassumption); clear X end.
        match type of HE with bind ?m _ = _ => destruct m as [es| |] eqn:EX; try discriminate end. cbn [bind] in HE. injection HE as <-. apply nogen_tuple.
        revert es EX. generalize 0. induction H as [|y r Hy Hr IH]; intros n es EX; cbn [mapMi_from] in EX; [injection EX as <-; constructor|].
        inv_bind EX. inv_bind EX. injection EX as <-. constructor; [|eauto]. eapply Hy; [|eassumption]. exact DZ.
      - inv_bind HE. inv_bind HE. injection HE as <-. cbn [nogen]. split; [eapply IHt; [|eassumption]; exact I|eapply data_nogen; eassumption].
      - destruct b as [k|k|k| | |]; try (destruct k; try discriminate); try (eapply data_nogen; eassumption);
          inv_bind HE; injection HE as <-; cbn [nogen]; eapply data_nogen; eassumption.
      - inv_bind HE. injection HE as <-. cbn [nogen]. eapply prim_data_nogen; eassumption.
      - eapply class_nogen; eassumption.
      - rewrite CT in HE. discriminate.
      - inv_bind HE. injection HE as <-. cbn [nogen]. eapply data_nogen; eassumption.
      - inv_bind HE. injection HE as <-. cbn [nogen]. match goal with X : da_data _ _ _ = Ok ?y |- _ => apply data_nogen in X; [|exact A] end. auto.
      - inv_bind HE. injection HE as <-. cbn [nogen]. match goal with X : da_data _ _ _ = Ok ?y |- _ => apply data_nogen in X; [|exact A] end. auto.
      - eapply IHt; [exact A|eassumption].
    Qed.
  End Render.
  Lemma render_nogen cfg a t e : c_tvars (d_cls cfg) = None -> nogen (da_var a) -> de_render P W cfg a t = Ok e -> nogen e.
  Proof.
    intros CT V H. unfold de_render in H.
    assert (N : de_ty P W cfg a t = Ok e -> nogen e) by (now apply de_ty_nogen).
    destruct (d_legacy cfg); [|auto]. destruct (da_deser a); [auto|]. destruct (find_de _ _ _); [auto|].
    assert (G : forall a' t', nogen (da_var a') -> (e0 <- de_ty P W {| d_named := d_named cfg; d_cls := d_cls cfg; d_legacy := false;
                     d_suppress := d_suppress cfg; d_class_de := None; d_cname := "None" |} a' t' ;; dat <- da_data_or W a' t' ;; Ok (ELegacyDe t' dat e0)) = Ok e -> nogen e).
    { intros a' t' A' E. inv_bind E. inv_bind E. injection E as <-. cbn [nogen]. split.
      - unfold da_data_or in Hb0. destruct (da_iter a'); [eapply data_nogen; eassumption|]. inv_bind Hb0. injection Hb0 as <-. exact A'.
      - eapply de_ty_nogen; [|exact A'|eassumption]. exact CT. }
    destruct t; (apply G in H; [exact H|exact V]).
  Qed.

  Lemma mapMi_In {A B} (f : nat -> A -> res B) l y : forall i out, mapMi_from f i l = Ok out -> In y out -> exists j x, In x l /\ f j x = Ok y.
  Proof.
    induction l as [|x l IH]; intros i out H Iy; cbn [mapMi_from] in H; [injection H as <-; destruct Iy|].
    inv_bind H. inv_bind H. injection H as <-. destruct Iy as [<-|Iy]; [exists i, x; split; [now left|assumption]|].
    destruct (IH _ _ Hb0 Iy) as (j & z & Iz & E). exists j, z. split; [now right|exact E].
  Qed.
  Lemma body_plain d nm b : c_tvars d = None -> render_de P W d nm = Ok b -> plain_body b.
  Proof.
    intros CT H. unfold render_de in H. destruct nm.
    - unfold render_from_dict in H. inv_bind H. cbv zeta in H. destruct (c_transparent d).
      + destruct (filter renderable a) as [|f fs]; [discriminate|]. destruct (force_kw false a) as [|arg args]; [discriminate|].
        inv_bind H. injection H as <-. cbn [plain_body]. eapply render_nogen; [| |eassumption]; [exact CT|exact I].
      + inv_bind H. match type of H with bind ?m _ = _ => destruct m as [l| |] eqn:E; try discriminate end. cbn [bind] in H. destruct (check_args _ _); [|discriminate]. injection H as <-.
        cbn [plain_body]. intros x p e k Il. destruct (mapMi_In _ _ _ _ _ E Il) as (j & f & _ & SF). destruct (is_flat_dict_field f); [discriminate|].
        match type of SF with bind ?m _ = _ => destruct m as [pv| |] eqn:PV; try discriminate end. cbn [bind] in SF. cbv zeta in SF.
        match type of SF with bind ?m _ = _ => destruct m as [e'| |] eqn:EE; try discriminate end. cbn [bind] in SF.
        assert (X : e' = e).
        { destruct (da_default _); [now injection SF|]. inv_bind SF. now injection SF. }
        subst e'. eapply render_nogen; [| |exact EE]; [exact CT|]. cbn [field_arg da_var].
        destruct (flat_child f) as [c|]; [|injection PV as <-; exact I]. destruct (get_class P c); [|discriminate]. inv_bind PV. injection PV as <-. exact I.
    - unfold render_from_iter in H. inv_bind H. cbv zeta in H. destruct (c_transparent d).
      + destruct (filter renderable a) as [|f fs]; [discriminate|]. inv_bind H. injection H as <-. cbn [plain_body].
        eapply render_nogen; [| |eassumption]; [exact CT|exact I].
      + match type of H with bind ?m _ = _ => destruct m as [l| |] eqn:E; try discriminate end. cbn [bind] in H. injection H as <-.
        cbn [plain_body]. intros x e Il. destruct (mapMi_In _ _ _ _ _ E Il) as (j & f & _ & SF). inv_bind SF. injection SF as _ <-.
        eapply render_nogen; [| |eassumption]; [exact CT|exact I].
  Qed.

  Lemma run_params n : forall d v nm ro dn mg tv va mg' tv' va', c_tvars d = None ->
    run P W K n (QDe d v nm ro dn mg tv va) = run P W K n (QDe d v nm ro dn mg' tv' va').
  Proof.
    induction n as [|n IH]; intros d v nm ro dn mg tv va mg' tv' va' CT; [reflexivity|]. cbn [run step].
    apply bind_same; [reflexivity|]. intros b B. cbv zeta. rewrite CT.
    set (t1 := match tv with Some (_ :: _) => tv | _ => None end). set (t2 := match tv' with Some (_ :: _) => tv' | _ => None end). clearbody t1 t2.
    apply (body_params (run P W K n) IH (de_ctx P d (flag ro (c_reuse d)) dn mg t1 va) mg' t2 va' b v CT). eapply body_plain; eassumption.
  Qed.
End Params.

Section Elem.
  Variables (P : program) (W : world) (K : list (tagging * pytype)).
  Notation es := (enum_scalar P).

  (** * Specification *)

  (** v[i]: the element of a sequence, the entry of a mapping under the number, the character of a text *)
  Inductive item : pyval -> nat -> pyval -> Prop :=
  | im_seq k l i e : In k [KList; KTuple; KDeque] -> nth_error l i = Some e -> item (VSeq k l) i e
  | im_map k l i e : dget es l (VInt (Z.of_nat i)) = Some e -> item (VMap k l) i e
  | im_counter l i : dget es l (VInt (Z.of_nat i)) = None -> item (VMap MCounter l) i (VInt 0)
  | im_default f l i e : dget es l (VInt (Z.of_nat i)) = None -> factory_value f = Ok e -> item (VMap (MDefault f) l) i e
  | im_text v s i c : scalar es v = Some (SS s) -> nth_error (list_ascii_of_string s) i = Some c -> item v i (VStr (String c "")).

  (** A mapping made of pairs: the last pair with a key decides; with different keys, the pairs themselves *)
  Definition latest (l : list (pyval * pyval)) (k : pyval) : option pyval :=
    fold_left (fun r kv => if eqv P (fst kv) k then Some (snd kv) else r) l None.
  Definition entries (l m : list (pyval * pyval)) : Prop :=
    (Forall (fun kv => atom P (fst kv)) l -> forall k, atom P k -> dget es m k = latest l k) /\ (distinct P (map fst l) -> m = l).

  (** hash(v) works: for tuples of values for which it works, for frozensets, for objects of the classes that have it, and for
      everything that is neither a container nor an object *)
  Inductive hashes : pyval -> Prop :=
  | ha_tuple l : Forall hashes l -> hashes (VSeq KTuple l)
  | ha_frozen l : hashes (VSeq KFrozen l)
  | ha_object c d fs : get_class P c = Some d -> c_hashable d = true -> hashes (VObj c fs)
  | ha_plain v : (forall k l, v <> VSeq k l) -> (forall k l, v <> VMap k l) -> (forall c fs, v <> VObj c fs) -> hashes v.
  Definition keyed (l m : list (pyval * pyval)) : Prop := Forall (fun kv => hashes (fst kv)) l /\ entries l m.
  Definition set_from (l s : list pyval) : Prop := Forall hashes l /\ once P l s.

  (** The member of an enum that a value stands for: itself, or the first member whose value it equals *)
  Inductive member (c : string) : pyval -> pyval -> Prop :=
  | me_self m e : get_enum P c = Some e -> In m (map fst (e_members e)) -> member c (VEnum c m) (VEnum c m)
  | me_value y e pre m x post : get_enum P c = Some e -> e_members e = pre ++ (m, x) :: post ->
      Forall (fun nv => eqv P (snd nv) y = false) pre -> eqv P x y = true -> member c y (VEnum c m).
  (** What else is tried for a value that no member has: lists as tuples, texts converted to the class of the first member's value *)
  Inductive instead (c : string) : pyval -> pyval -> Prop :=
  | in_list e m l l' r : get_enum P c = Some e -> e_members e = (m, VSeq KTuple l') :: r -> instead c (VSeq KList l) (VSeq KTuple l)
  | in_text e m y x r v : get_enum P c = Some e -> e_members e = (m, y) :: r -> instance_of P x (TPrim PStr) ->
      (forall s, y <> VStr s) -> retype P W y x = Ok v -> instead c x v.

  (** Types that are read without a look at the datum, and what they give: a tuple may lack the elements of such types. *)
  Definition all_some {A B} (f : A -> option B) : list A -> option (list B) :=
    fix go l := match l with
      | [] => Some []
      | t :: r => match f t, go r with Some x, Some y => Some (x :: y) | _, _ => None end
      end.
  Fixpoint blank (t : pytype) : option pyval :=
    match t with
    | TNone => Some VNone
    | TAlias _ a => blank a
    | TTuple l => option_map (VSeq KTuple) (all_some blank l)
    | _ => None
    end.

  (** The values [l] of a tuple are read from the items of [x], by the relation [R], from the item [i] on. *)
  Definition each_item (R : pytype -> pyval -> pyval -> Prop) (x : pyval) : nat -> list pytype -> list pyval -> Prop :=
    fix go i ts l := match ts, l with
      | [], [] => True
      | t :: ts, y :: l => ((exists e, item x i e /\ R t e y) \/ blank t = Some y) /\ go (S i) ts l
      | _, _ => False
      end.

  Section Reads.
    (** The tagging of the class, whether instances are reused, and the function for float numbers *)
    Variables (tg : tagging) (reuse : bool) (dn : option numhook).

    Definition converted (t : pytype) (x v : pyval) : Prop := x <> VNone /\ call_ctor P W t x = Ok v.
    Definition primitive (co : bool) (t : pytype) (x v : pyval) : Prop :=
      match dn, is_float_class t with
      | Some h, true => h x = Ok v
      | _, _ => match t with
                | TPrim p | TNewType _ p => if co then converted (TPrim p) x v else v = x
                | _ => converted t x v
                end
      end.

    Definition optional (l : list pytype) : bool := match l with [a; TNone] => negb (is_none a) | _ => false end.
    (** The value [v] is read from the datum [x] by the type [t]; [nm] tells whether dataclasses are read
        from mappings rather than sequences, [co] whether the class coerces.  Of unions other than
        Optional it is said that some member reads the value, not which (see C17).  Nothing is said of generic classes (see C46). *)
    Fixpoint Reads (t : pytype) (nm co : bool) (x v : pyval) {struct t} : Prop :=
      match t with
      | TPrim _ | TPrimSub _ _ | TNewType _ _ => primitive co t x v
      | TNone => v = VNone
      | TAny => v = x
      | TUnion l =>
        if optional l then (x = VNone /\ v = VNone) \/ (x <> VNone /\ match l with a :: _ => Reads a nm co x v | [] => False end)
        else (** a member, from what the tagging provides for it, without coercion, which beartype accepts for that member *)
          (fix some l := match l with
           | [] => False
           | t :: r => (exists p, payload P tg t x p /\ (forall t', denoted t = Some t' -> bear P W v t' = true) /\ Reads t true false p v) \/ some r
           end) l
      | TList _ a => exists l l', elements P x l /\ Forall2 (Reads a nm co) l l' /\ v = VSeq KList l'
      | TDeque a => exists l l', elements P x l /\ Forall2 (Reads a nm co) l l' /\ v = VSeq KDeque l'
      | TVarTuple a => exists l l', elements P x l /\ Forall2 (Reads a nm co) l l' /\ v = VSeq KTuple l'
      | TSet k a => exists l l' s, elements P x l /\ Forall2 (Reads a nm co) l l' /\ set_from l' s /\
          v = VSeq match k with SkFrozen => KFrozen | _ => KSet end s
      | TCounter a => exists k l l' m, x = VMap k l /\ Forall2 (fun kv kv' => Reads a nm co (fst kv) (fst kv') /\ snd kv' = snd kv) l l' /\
          keyed l' m /\ v = VMap MCounter m
      | TDict dk a b => exists k l l' m, x = VMap k l /\
          Forall2 (fun kv kv' => (if is_num_key a then converted a (fst kv) (fst kv') else Reads a nm co (fst kv) (fst kv')) /\
                                 Reads b nm co (snd kv) (snd kv')) l l' /\
          keyed l' m /\ v = VMap match dk with DkDefault => MDefault (factory_name P b) | _ => MDict end m
      | TTuple ts => exists l', v = VSeq KTuple l' /\
          each_item (fun t => Reads t nm co) x 0 ts l'
      | TBare b => made P b x v
      | TEnum c => member c x v \/ ((forall y, ~ member c x y) /\ exists y, instead c x y /\ member c y v)
      | TStr k => (reuse = true /\ instance_of P x t /\ v = x) \/ ((reuse = false \/ ~ instance_of P x t) /\ w_ctor W k x = Ok v)
      | TDate k => (reuse = true /\ instance_of P x t /\ v = x) \/ ((reuse = false \/ ~ instance_of P x t) /\ w_iso W k x = Ok v)
      | TLit l => v = x /\ exists y, In y l /\ eqv P (lit_val y) x = true
      | TClass c => (forall fs, x <> VObj c fs) -> exists n, (if nm then from_dict P W K n else from_tuple P W K n) (TagExternal, TClass c) x (Some reuse) dn = Ok v
      | TAlias _ a => Reads a nm co x v
      | _ => True
      end.
  End Reads.

  (** * Lemmas *)

  (** C50 speaks of values for which hash() works by the function of the model; these are the values described above. *)
  Theorem C50_hash v : hashable P v = true <-> hashes v.
  Proof.
    induction v using pyval_ind'; try (split; [intros _; apply ha_plain; discriminate|reflexivity]).
    - cbn [hashable]. destruct k; try (split; [discriminate|intros X; inversion X as [| | |? N]; subst; now elim (N _ _ eq_refl)]); [|split; [intros _; constructor|reflexivity]].
      rewrite forallb_forall. rewrite Forall_forall in H. split.
      + intros A. constructor. apply Forall_forall. intros x I. apply H; auto.
      + intros X. inversion X as [? F| | |? N]; subst; [|now elim (N _ _ eq_refl)]. rewrite Forall_forall in F. intros x I. apply H; auto.
    - split; [discriminate|]. intros X. inversion X as [| | |? _ N]; subst. now elim (N _ _ eq_refl).
    - cbn [hashable]. split.
      + destruct (get_class P c) as [d|] eqn:G; [|discriminate]. intros E. eapply ha_object; eassumption.
      + intros X. inversion X as [| |? d ? G E|? _ _ N]; subst; [now rewrite G|now elim (N _ _ eq_refl)].
  Qed.

  Lemma nth_opt_error {A} (l : list A) i : nth_opt l i = nth_error l i.
  Proof. revert i. induction l as [|a l IH]; intros [|i]; cbn [nth_opt nth_error]; auto. Qed.

  Lemma getidx_item x i e : getidx P x i = Ok e -> item x i e.
  Proof.
    intros H. unfold getidx in H.
    assert (T : match scal_of P x with Some (SS s) => of_option XIndex (nth_opt (chars s) i) | _ => Raise XType end = Ok e -> item x i e).
    { unfold scal_of. destruct (scalar es x) as [[]|] eqn:E; try discriminate. unfold chars. rewrite nth_opt_error, nth_error_map.
      destruct (nth_error (list_ascii_of_string s) i) as [c|] eqn:N; [|discriminate]. cbn [option_map of_option]. intros X. injection X as <-. eapply im_text; eassumption. }
    destruct x; try (apply T; exact H).
    - destruct k; try (apply T; exact H); rewrite nth_opt_error in H; destruct (nth_error l i) eqn:N; try discriminate H; injection H as ->;
        apply im_seq; try exact N; cbn; auto.
    - destruct (dget es l (VInt (Z.of_nat i))) eqn:D; [injection H as ->; now apply im_map|]. destruct k; try discriminate H.
      + injection H as <-. now apply im_counter.
      + now apply im_default.
  Qed.

  Lemma latest_app l kv k : latest (l ++ [kv]) k = if eqv P (fst kv) k then Some (snd kv) else latest l k.
  Proof. unfold latest. rewrite fold_left_app. reflexivity. Qed.

  Lemma mk_map_latest l : forall done acc m, Forall (fun kv => atom P (fst kv)) done -> Forall (fun kv => atom P (fst kv)) acc -> Forall (fun kv => atom P (fst kv)) l ->
    (forall k, atom P k -> dget es acc k = latest done k) ->
    foldM (fun acc kv => if hashable P (fst kv) then Ok (dset es acc (fst kv) (snd kv)) else Raise XType) l acc = Ok m ->
    forall k, atom P k -> dget es m k = latest (done ++ l) k.
  Proof.
    induction l as [|[k0 v0] l IH]; intros done acc m FD FA FL I H k A; cbn [foldM] in H.
    - injection H as <-. rewrite app_nil_r. auto.
    - inversion FL as [|? ? A0 FL']; subst. cbn [fst snd] in *. destruct (hashable P k0); [|discriminate H]. cbn [bind] in H.
      replace (done ++ (k0, v0) :: l) with ((done ++ [(k0, v0)]) ++ l) by (rewrite <- app_assoc; reflexivity).
      assert (FD' : Forall (fun kv => atom P (fst kv)) (done ++ [(k0, v0)])) by (apply Forall_app; split; [exact FD|constructor; [exact A0|constructor]]).
      apply (IH _ _ _ FD' (atom_keys P _ _ v0 FA A0) FL') with (2 := H); [|exact A].
      intros z Az. rewrite (atom_set P _ _ _ _ FA A0 Az), latest_app. cbn [fst snd]. now rewrite (I z Az).
  Qed.
  Lemma mk_map_entries l m : mk_map P l = Ok m -> entries l m.
  Proof.
    intros H. split.
    - intros F k A. unfold mk_map in H. exact (mk_map_latest l [] [] m (Forall_nil _) (Forall_nil _) F (fun _ _ => eq_refl) H k A).
    - intros D. assert (HB : forall acc m, foldM (fun acc kv => if hashable P (fst kv) then Ok (dset es acc (fst kv) (snd kv)) else Raise XType) l acc = Ok m ->
        forallb (hashable P) (map fst l) = true).
      { clear. induction l as [|kv l IH]; intros acc m H; [reflexivity|]. cbn [foldM] in H.
        cbn [map forallb]. destruct (hashable P (fst kv)); [|discriminate H]. cbn [bind] in H. cbn [andb]. eauto. }
      rewrite (mk_map_distinct P l D (HB _ _ H)) in H. congruence.
  Qed.

  Lemma enum_member_of c y v : enum_call P c y = Ok v -> member c y v.
  Proof.
    intros H. unfold enum_call in H. destruct (get_enum P c) as [e|] eqn:G; [|discriminate H].
    destruct (e_members e) as [|m0 ms] eqn:M; [discriminate H|]. rewrite <- M in H.
    destruct (match y with VEnum c' m => String.eqb c' c && match slookup m (e_members e) with Some _ => true | None => false end | _ => false end) eqn:B.
    - destruct y; try discriminate B. injection H as <-. apply andb_prop in B as [B1 B2]. apply String.eqb_eq in B1. subst c0.
      destruct (slookup m (e_members e)) eqn:S1; [|discriminate B2]. apply slookup_In in S1. eapply me_self; [exact G|]. apply in_map_iff. exists (m, p). auto.
    - destruct (find (fun nv => eqv P (snd nv) y) (e_members e)) as [[m x]|] eqn:F; [|discriminate H]. injection H as <-. rewrite M in F. rewrite <- M in F.
      assert (S1 : exists pre post, e_members e = pre ++ (m, x) :: post /\ Forall (fun nv => eqv P (snd nv) y = false) pre /\ eqv P x y = true).
      { clear -F. induction (e_members e) as [|nv l IH]; [discriminate F|]. cbn [find] in F. destruct (eqv P (snd nv) y) eqn:E.
        - injection F as ->. exists [], l. split; [reflexivity|]. split; [constructor|exact E].
        - destruct (IH F) as (pre & post & -> & A & B). exists (nv :: pre), post. split; [reflexivity|]. split; [constructor; assumption|exact B]. }
      destruct S1 as (pre & post & S1 & S2 & S3). eapply me_value; eassumption.
  Qed.
  Lemma not_member c y ex : enum_call P c y = Raise ex -> forall v, ~ member c y v.
  Proof.
    intros H v Q. unfold enum_call in H. destruct Q as [m e G I|y e pre m x post G E F Q]; rewrite G in H.
    - destruct (e_members e) as [|m0 ms] eqn:M; [destruct I|]. rewrite <- M in *. rewrite String.eqb_refl in H. cbn [andb] in H.
      destruct (slookup m (e_members e)) eqn:S1; [discriminate H|]. apply slookup_None in S1. now apply S1.
    - destruct (e_members e) as [|m0 ms] eqn:M; [destruct pre; discriminate E|].
      destruct (match y with VEnum c' m => _ | _ => false end); [discriminate H|].
      destruct (find (fun nv => eqv P (snd nv) y) (m0 :: ms)) as [[? ?]|] eqn:FN; [discriminate H|].
      assert (X := find_none _ _ FN (m, x)). rewrite E in X. specialize (X ltac:(apply in_or_app; right; now left)). cbn [snd] in X. congruence.
  Qed.
  Lemma enum_read c x v : deserialize_enum P W c x = Ok v ->
    member c x v \/ ((forall y, ~ member c x y) /\ exists y, instead c x y /\ member c y v).
  Proof.
    intros H. unfold deserialize_enum in H. destruct (enum_call P c x) as [w|ex|] eqn:E; [|right|discriminate H].
    - left. injection H as <-. now apply enum_member_of.
    - split; [eapply not_member; exact E|].
      assert (H' : match get_enum P c with
      | Some d =>
        match e_members d with
        | (_, y) :: _ =>
          match x, y with
          | VSeq KList l, VSeq KTuple _ => enum_call P c (VSeq KTuple l)
          | _, _ =>
            if is_str_inst P x && match y with VStr _ => false | _ => true end
            then z <- retype P W y x ;; enum_call P c z
            else Raise ex
          end
        | [] => Raise ex
        end
      | None => Raise ex
      end = Ok v) by (destruct ex; try discriminate H; exact H). clear H. rename H' into H.
      destruct (get_enum P c) as [e|] eqn:G; [|discriminate H]. destruct (e_members e) as [|[m y] r] eqn:M; [discriminate H|].
      assert (T : (if is_str_inst P x && match y with VStr _ => false | _ => true end
            then z <- retype P W y x ;; enum_call P c z
            else Raise ex) = Ok v -> exists y0, instead c x y0 /\ member c y0 v).
      { intros Q. destruct (is_str_inst P x && _) eqn:B; [|discriminate Q]. apply andb_prop in B as [B1 B2]. inv_bind Q. exists a. split; [|now apply enum_member_of].
        eapply in_text; try eassumption; [now apply prim_instance|]. intros s ->. discriminate B2. }
      destruct x; try (apply T; exact H). destruct k; try (apply T; exact H). destruct y; try (apply T; exact H). destruct k; try (apply T; exact H).
      exists (VSeq KTuple l). split; [eapply in_list; eassumption|now apply enum_member_of].
  Qed.

  Lemma coerced c f t x v : coerce_object P W c f t x = Ok v -> converted t x v.
  Proof.
    intros H. unfold coerce_object in H. split; [intros ->; discriminate H|].
    destruct x; try discriminate H; destruct (call_ctor P W t _); cbn [catch] in H; try discriminate H; congruence.
  Qed.

  (** * The generated code *)
  (** No deserializer applies to the argument: it is marked default_deserializer, or there is none. *)
  Definition unmade (cfg : decfg) (a : dearg) : Prop := da_deser a = Some None \/ da_deser a = None /\ d_class_de cfg = None.
  Lemma unmade_rest cfg a t : p_des P = [] -> unmade cfg a -> de_ty P W cfg a t = de_rest P W cfg a t.
  Proof.
    intros ND [M|[M C]]; rewrite de_ty_eq, M; [now destruct (find_de P (d_class_de cfg) t)|].
    unfold find_de, class_des. rewrite ND, C. reflexivity.
  Qed.
  Lemma unmade_gen cfg a c l : p_des P = [] -> unmade cfg a -> de_gen P W cfg a c l =
    (let a' := with_targs a (map (targ_str P) l) in
     e <- de_class W cfg a' c ;; e <- de_default P W a' (TClass c) e ;; de_default P W a' (TClass c) e).
  Proof.
    intros ND [M|[M C]]; unfold de_gen; rewrite M; [now destruct (find_de P (d_class_de cfg) (TClass c))|].
    unfold find_de, class_des. rewrite ND, C. reflexivity.
  Qed.

  Section Code.
    Variables (n : nat) (cx : ctx) (d : classdef) (cfg : decfg).
    Hypotheses (NoDes : p_des P = []) (Glob : x_g cx = de_globals P d) (Names : names_ok P d).
    Notation ev := (eval P W (run P W K n) cx).
    Notation rd t := (Reads (c_tagging d) (x_reuse cx) (x_dn cx) t (d_named cfg) (negb (d_suppress cfg))).

    (** The code that the argument [a] stands for has the value [x]. *)
    Definition points (rho : env) (a : dearg) (x : pyval) : Prop :=
      da_alias a = [] /\ da_flatten a = false /\ unmade cfg a /\ (da_inner a = true -> da_iter a = false) /\ (da_parent a = None \/ da_parent a = Some (c_id d)) /\
      if da_inner a then da_default a = false /\ ev rho (da_var a) = Ok x
      else if da_iter a then ev rho (EIdx (da_var a) (da_index a)) = Ok x
      else forall k, da_key W a = Ok k -> ev rho (EGet (da_var a) k) = Ok x /\ ev rho (EKey (da_var a) k) = Ok x /\ ev rho (EIn k (da_var a)) = Ok (VBool true).

    Lemma points_data rho a x t dat : points rho a x -> da_data W a t = Ok dat -> ev rho dat = Ok x.
    Proof.
      intros (_ & _ & _ & IT & _ & PT) H. unfold da_data in H. destruct (da_inner a).
      - injection H as <-. apply PT.
      - destruct (da_iter a); [injection H as <-; exact PT|]. inv_bind H. injection H as <-. destruct (PT _ Hb) as (A & B & _). now destruct (has_none_arg t).
    Qed.
    Lemma points_prim rho a x t dat : points rho a x -> prim_data W a t = Ok dat -> ev rho dat = Ok x.
    Proof. intros PT H. unfold prim_data in H. rewrite (proj1 PT) in H. eapply points_data; eassumption. Qed.
    Lemma points_default rho a x t e e' : points rho a x -> de_default P W a t e = Ok e' -> ev rho e' = ev rho e.
    Proof.
      intros (AL & FL & _ & IT & _ & PT) H. unfold de_default in H. rewrite FL, AL in H. destruct (da_default a) eqn:DD; cbn [andb negb] in H; [|congruence].
      destruct (da_inner a); [destruct PT; discriminate|]. destruct (da_iter a); cbn [negb] in H; [congruence|]. inv_bind H. injection H as <-. inv_bind Hb. injection Hb as <-. destruct (PT _ Hb0) as (_ & _ & C).
      cbn [eval] in C |- *. rewrite C. reflexivity.
    Qed.
    Lemma points_inner rho a x rho' name var x' : points rho a x -> ev rho' var = Ok x' -> points rho' (inner_arg a name var) x'.
    Proof. intros (AL & FL & DS & IT & PA & PT) H. repeat split; try assumption. Qed.
    Lemma points_opt rho a x : points rho a x -> points rho (opt_inner a) x.
    Proof.
      intros (AL & FL & DS & IT & PA & PT). repeat split; try assumption. cbn [opt_inner da_inner da_default da_var da_iter da_index]. destruct (da_inner a); [now split|exact PT].
    Qed.

    Lemma core rho a x t e v : points rho a x -> (forall c l, t <> TGen c l) -> de_ty P W cfg a t = Ok e -> ev rho e = Ok v ->
      exists e0, de_gcore P W cfg a t = Ok e0 /\ ev rho e0 = Ok v.
    Proof.
      intros PT NG E V. rewrite (unmade_rest _ _ _ NoDes (proj1 (proj2 (proj2 PT)))) in E. unfold de_rest in E.
      assert (G : exists e0, de_gcore P W cfg a t = Ok e0 /\ de_default P W a t e0 = Ok e) by (destruct t; try (inv_bind E; eauto); destruct (NG _ _ eq_refl)).
      destruct G as (e0 & G1 & G2). exists e0. split; [exact G1|]. now rewrite (points_default _ _ _ _ _ _ PT G2) in V.
    Qed.

    Definition within (t : pytype) : Prop := (forall u, sub_ty u t -> reach P d u) /\ (forall u, needed u = true -> sub_ty u t -> In u (iter_types P d)) /\
      (forall l, sub_ty (TUnion l) t -> In (TUnion l) (iter_unions P d)).
    Lemma within_sub t u : within t -> sub_ty u t -> within u.
    Proof. intros (A & B & C) H. split; [|split]; intros; [apply A|apply B|apply C]; eauto using sub_ty_trans. Qed.
    Lemma within_name t : within t -> needed t = true -> resolve P (x_g cx) t = Ok t.
    Proof. intros (_ & B & _) H. rewrite Glob. apply de_lookup; auto. apply B; [exact H|constructor]. Qed.

    Lemma each (R : pyval -> pyval -> Prop) (f : pyval -> res pyval) l l' : mapM f l = Ok l' -> (forall x y, f x = Ok y -> R x y) -> Forall2 R l l'.
    Proof. intros H I. apply mapM_Ok in H. induction H; constructor; auto. Qed.

    Lemma weaken {A B} (R Q : A -> B -> Prop) l l' : (forall x y, R x y -> Q x y) -> Forall2 R l l' -> Forall2 Q l l'.
    Proof. intros I. induction 1; constructor; auto. Qed.

    Lemma set_of k l v : is_setkind k = true -> mk_seq P k l = Ok v -> exists s, set_from l s /\ v = VSeq k s.
    Proof.
      intros S1 H. unfold mk_seq in H. rewrite S1 in H. destruct (forallb _ _) eqn:HA; [|discriminate H]. injection H as <-. eexists. split; [|reflexivity].
      split; [rewrite forallb_forall in HA; apply Forall_forall; intros x I; now apply C50_hash, HA|].
      apply (dedup_spec P l [] []). split; [intros ? []|]. split; [intros ? []|]. intros [|] ? ? ? ?; discriminate.
    Qed.

    Lemma comp rho a x t0 t name e dat k v : points rho a x -> within t ->
      (within t -> forall rho a x e v, points rho a x -> de_ty P W cfg a t = Ok e -> ev rho e = Ok v -> rd t x v) ->
      de_ty P W cfg (inner_arg a name (EVar "v")) t = Ok e -> da_data W a t0 = Ok dat -> ev rho (EComp k e dat) = Ok v ->
      exists l l', elements P x l /\ Forall2 (rd t) l l' /\ mk_seq P k l' = Ok v.
    Proof.
      intros PT WI IH E D V. cbn [eval] in V. rewrite (points_data _ _ _ _ _ PT D) in V. cbn [bind] in V. inv_bind V. inv_bind V. rename a0 into l, a1 into l'.
      exists l, l'. split; [now apply iter_elements|]. split; [|exact V]. apply (each _ _ _ _ Hb0). intros y z Q. cbv beta in Q.
      eapply (IH WI); [|exact E|exact Q]. eapply points_inner; [exact PT|reflexivity].
    Qed.

    Lemma prim_read rho a x t e v : points rho a x -> (is_prim_sub t = true -> resolve P (x_g cx) t = Ok t) ->
      match t with TPrim _ | TPrimSub _ _ | TNewType _ _ => True | _ => False end ->
      de_prim W cfg a t = Ok e -> ev rho e = Ok v -> primitive (x_dn cx) (negb (d_suppress cfg)) t x v.
    Proof.
      intros PT RS TY E V. unfold de_prim in E. inv_bind E. assert (D := points_prim _ _ _ _ _ PT Hb). rename a0 into dat.
      set (q := if _ && _ then dat else _) in E.
      assert (Q : ev rho q = Ok v -> match t with TPrim p | TNewType _ p => if negb (d_suppress cfg) then converted (TPrim p) x v else v = x | _ => converted t x v end).
      { unfold q. clear -D RS TY. intros Q.
        destruct t; try contradiction; cbn [is_prim_sub negb] in *; rewrite ?andb_false_r in Q.
        - destruct (d_suppress cfg); cbn [andb negb] in Q |- *; try congruence. cbn [eval resolve bind] in Q. rewrite D in Q. cbn [bind] in Q. now apply coerced in Q.
        - cbn [eval] in Q. rewrite RS in Q by reflexivity. cbn [bind] in Q. rewrite D in Q. cbn [bind] in Q. now apply coerced in Q.
        - destruct (d_suppress cfg); cbn [andb negb] in Q |- *; try congruence. cbn [eval resolve bind] in Q. rewrite D in Q. cbn [bind] in Q. now apply coerced in Q. }
      unfold primitive. destruct (is_float_class t); [|injection E as <-; destruct (x_dn cx); exact (Q V)].
      injection E as <-. cbn [eval bind] in V. rewrite truthy_bool in V. destruct (x_dn cx) as [h|]; cbn [has_some] in V; [|exact (Q V)].
      rewrite D in V. exact V.
    Qed.

    Lemma mapcomp rho x ek evv dat v : ev rho dat = Ok x -> ev rho (EMapComp ek evv dat) = Ok v ->
      exists k l l' m, x = VMap k l /\
        Forall2 (fun kv kv' => ev (("k", fst kv) :: ("v", snd kv) :: rho) ek = Ok (fst kv') /\ ev (("k", fst kv) :: ("v", snd kv) :: rho) evv = Ok (snd kv')) l l' /\
        keyed l' m /\ v = VMap MDict m.
    Proof.
      intros D V. cbn [eval] in V. rewrite D in V. cbn [bind] in V. destruct x; try discriminate V. cbn [items bind] in V. inv_bind V. inv_bind V. injection V as <-.
      rename a into l', a0 into m. exists k, l, l', m. split; [reflexivity|]. split; [|split; [split; [|now apply mk_map_entries]|reflexivity]].
      - apply mapM_Ok in Hb. clear -Hb. induction Hb as [|kv kv' l l' H F IH]; constructor; [|exact IH]. cbv zeta in H. inv_bind H. inv_bind H.
        destruct (hashable P a); [|discriminate H]. injection H as <-. cbn [fst snd]. auto.
      - apply mapM_Ok in Hb. clear -Hb. induction Hb as [|kv kv' l l' H F IH]; constructor; [|exact IH]. cbv zeta in H. inv_bind H. inv_bind H.
        destruct (hashable P a) eqn:HA; [|discriminate H]. injection H as <-. now apply C50_hash.
    Qed.

    (** The code that the argument stands for has no value. *)
    Definition fails (rho : env) (a : dearg) : Prop :=
      da_alias a = [] /\ da_flatten a = false /\ unmade cfg a /\ da_iter a = false /\ da_default a = false /\ da_inner a = true /\
      forall x, ev rho (da_var a) <> Ok x.
    Lemma fails_inner rho a x rho' name var : points rho a x -> (forall x, ev rho' var <> Ok x) -> fails rho' (inner_arg a name var).
    Proof. intros (AL & FL & DS & IT & PA & PT) H. repeat split; try assumption. Qed.
    Lemma fails_sub rho a rho' name var : fails rho a -> (forall x, ev rho' var <> Ok x) -> fails rho' (inner_arg a name var).
    Proof. intros (AL & FL & DS & IT & PA & PT) H. repeat split; try assumption. Qed.

    Lemma dead {B} (r : res pyval) (f : pyval -> res B) y : (forall x, r <> Ok x) -> (q <- r ;; f q) <> Ok y.
    Proof. intros NV. destruct r as [z| |]; [elim (NV z eq_refl)|discriminate|discriminate]. Qed.

    Lemma no_data t : forall rho a e v, fails rho a -> de_ty P W cfg a t = Ok e -> ev rho e = Ok v -> blank t = Some v.
    Proof.
      induction t using pytype_ind'; intros rho a e v F E V;
        (assert (F' := F); destruct F' as (AL & FL & DS & IT & DD & IN & NV)); rewrite (unmade_rest _ _ _ NoDes DS) in E; unfold de_rest in E;
        (assert (DF : forall t e e', de_default P W a t e = Ok e' -> e' = e) by (unfold de_default; rewrite DD; cbn [andb]; congruence));
        (assert (DA : forall t, da_data W a t = Ok (da_var a)) by (intros; unfold da_data; now rewrite IN));
        (assert (NB := fun B (f : pyval -> res B) y => dead (ev rho (da_var a)) f y NV));
        (assert (PR : forall t e, de_prim W cfg a t = Ok e -> ev rho e = Ok v -> False);
         [clear -NV DA AL NB; intros t0 e0 G V; unfold de_prim, prim_data in G; rewrite AL, DA in G; cbn [bind] in G;
          (assert (Q : ev rho (if d_suppress cfg && negb (is_prim_sub t0) then da_var a else ECoerce (d_cname cfg) (da_name a) t0 (da_var a)) <> Ok v);
           [destruct (_ && _); [apply NV|]; cbn [eval]; destruct (resolve P (x_g cx) t0); cbn [bind]; [apply NB|discriminate|discriminate]|]);
          destruct (is_float_class t0); injection G as <-; [|now apply Q]; cbn [eval bind] in V; rewrite truthy_bool in V; destruct (x_dn cx); cbn [has_some] in V; [|now apply Q];
          now apply NB in V|]).
      all: try (inv_bind E; apply DF in E; subst a0; rename Hb into G; unfold de_gcore in G; rewrite ?DA in G; cbn [bind] in G; try discriminate G).
      - exfalso. now apply (PR _ _ G V).
      - exfalso. now apply (PR _ _ G V).
      - exfalso. now apply (PR _ _ G V).
      - injection G as <-. cbn [eval] in V. injection V as <-. reflexivity.
      - exfalso. injection G as <-. now apply (NV v).
      - exfalso. destruct (is_opt (TUnion l)).
        + destruct l; [discriminate G|]. rewrite IT, IN in G. cbn [orb bind] in G. inv_bind G. injection G as <-. cbn [eval] in V. destruct (ev rho (da_var a)) as [z| |] eqn:Q; [now apply (NV z)|discriminate V|discriminate V].
        + injection G as <-. now apply NB in V.
      - exfalso. inv_bind G. injection G as <-. now apply NB in V.
      - exfalso. destruct k; inv_bind G; injection G as <-; now apply NB in V.
      - exfalso. inv_bind G. injection G as <-. now apply NB in V.
      - exfalso. inv_bind G. injection G as <-. cbn [eval] in V. inv_bind V. now apply NB in Hb0.
      - exfalso. inv_bind G. inv_bind G.
        assert (NM : forall y, ev rho (EMapComp a0 a1 (da_var a)) <> Ok y) by (intros y Q; now apply NB in Q).
        destruct k; injection G as <-; try (now apply (NM v)).
        assert (V' : (if builtin_factory (factory_name P t2) || has_some (slookup (factory_name P t2) (x_g cx)) then
               v <- ev rho (EMapComp a0 a1 (da_var a)) ;; match v with VMap _ l => Ok (VMap (MDefault (factory_name P t2)) l) | _ => Raise XType end
             else Raise XName) = Ok v) by exact V.
        destruct (builtin_factory _ || _); [|discriminate V']. now apply (dead _ _ _ NM) in V'.
      - destruct l as [|t0 ts]; [discriminate G|]. inv_bind G. injection G as <-. rename a0 into es0.
        assert (V' : (l' <- mapM (ev rho) es0 ;; Ok (VSeq KTuple l')) = Ok v) by exact V. inv_bind V'. injection V' as <-. clear V PR. rename a0 into l'.
        enough (Q : all_some blank (t0 :: ts) = Some l') by (change (option_map (VSeq KTuple) (all_some blank (t0 :: ts)) = Some (VSeq KTuple l')); now rewrite Q).
        revert Hb Hb0. generalize 0 at 1. revert es0 l'. induction H as [|t l Ht HF IH]; intros es1 l1 i E V.
        + injection E as <-. injection V as <-. reflexivity.
        + cbn [mapMi_from] in E. inv_bind E. inv_bind E. injection E as <-. cbn [mapM] in V. inv_bind V. inv_bind V. injection V as <-.
          change (match blank t, all_some blank l with Some x, Some y => Some (x :: y) | _, _ => None end = Some (a2 :: a3)). rewrite (IH _ _ _ Hb0 Hb2). erewrite (Ht rho); [reflexivity| |exact Hb|exact Hb1].
          eapply fails_sub; [exact F|]. intros z Q. cbn [eval] in Q. now apply NB in Q.
      - exfalso. inv_bind G. injection G as <-. now apply NB in V.
      - exfalso. destruct b as [k0|k0|k0| | |]; try (injection G as <-; now apply NB in V). destruct k0; try discriminate G; injection G as <-; now apply (NV v).
      - exfalso. unfold prim_data in G. rewrite AL, DA in G. cbn [bind] in G. injection G as <-. cbn [eval] in V. destruct (resolve P (x_g cx) (TEnum c)); try discriminate V. now apply NB in V.
      - exfalso. unfold de_class in G. rewrite FL, DA in G. cbn [bind] in G. injection G as <-. cbn [eval] in V.
        destruct (match (match da_parent a with Some p => _ | None => _ end) with DtCls => _ | DtName t => _ end) in V; try discriminate V. now apply NB in V.
      - exfalso. rewrite (unmade_gen _ _ _ _ NoDes DS) in E. cbv zeta in E. inv_bind E. inv_bind E.
        unfold de_default in E, Hb0. cbn [with_targs da_default] in E, Hb0. rewrite DD in E, Hb0. cbn [andb] in E, Hb0. injection E as <-. injection Hb0 as <-.
        unfold de_class, da_data in Hb. cbn [with_targs da_flatten da_inner da_var da_parent] in Hb. rewrite FL, IN in Hb. cbn [bind] in Hb. injection Hb as <-. cbn [eval] in V.
        destruct (match (match da_parent a with Some p => _ | None => _ end) with DtCls => _ | DtName t => _ end) in V; try discriminate V. now apply NB in V.
      - exfalso. destruct (c_tvars (d_cls cfg)); [|discriminate G]. injection G as <-. cbn [eval] in V. destruct (get_generic_arg _ _ _ _); try discriminate V. now apply NB in V.
      - exfalso. injection G as <-. cbn [eval] in V. destruct (literal_args P cx _); [|discriminate V]. destruct (render_literal_de l0); try discriminate V. now apply NB in V.
      - exfalso. injection G as <-. cbn [eval bind] in V. rewrite truthy_bool in V. destruct (x_reuse cx).
        + destruct (ev rho (da_var a)) as [z| |] eqn:Q; [now apply (NV z)|discriminate V|discriminate V].
        + destruct (resolve P (x_g cx) (TStr k)); try discriminate V. now apply NB in V.
      - exfalso. injection G as <-. cbn [eval bind] in V. rewrite truthy_bool in V. destruct (x_reuse cx).
        + destruct (ev rho (da_var a)) as [z| |] eqn:Q; [now apply (NV z)|discriminate V|discriminate V].
        + destruct (resolve P (x_g cx) (TDate k)); try discriminate V. now apply NB in V.
      - now apply (IHt rho a e v F G V).
    Qed.

    Lemma tuple_read rho a x dat l : points rho a x -> ev rho dat = Ok x ->
      Forall (fun t => within t -> forall rho a x e v, points rho a x -> de_ty P W cfg a t = Ok e -> ev rho e = Ok v -> rd t x v) l -> (forall t, In t l -> within t) ->
      forall i es0 l', mapMi_from (fun n x => de_ty P W cfg (inner_arg a (show (EIdx dat n)) (EIdx dat n)) x) i l = Ok es0 -> mapM (ev rho) es0 = Ok l' ->
      each_item (fun t => rd t) x i l l'.
    Proof.
      intros PT D F. induction F as [|t l Ht F IH]; intros WI i es0 l' E V; cbn [mapMi_from] in E.
      - injection E as <-. injection V as <-. exact I.
      - inv_bind E. inv_bind E. injection E as <-. cbn [mapM] in V. inv_bind V. inv_bind V. injection V as <-. rename a0 into e, a1 into es1, a2 into y, a3 into l'.
        split.
        + destruct (ev rho (EIdx dat i)) as [z| |] eqn:X.
          * left. exists z. assert (X2 := X). cbn [eval] in X2. rewrite D in X2. cbn [bind] in X2. split; [now apply getidx_item|].
            eapply (Ht (WI t ltac:(now left))); [|exact Hb|exact Hb1]. eapply points_inner; [exact PT|exact X].
          * right. eapply no_data; [|exact Hb|exact Hb1]. apply fails_inner with (1 := PT). intros z. rewrite X. discriminate.
          * right. eapply no_data; [|exact Hb|exact Hb1]. apply fails_inner with (1 := PT). intros z. rewrite X. discriminate.
        + apply (IH ltac:(intros u Hu; apply WI; now right) (S i) es1 l' Hb0 Hb2).
    Qed.

  End Code.

  Section Value.
    Variable d : classdef.
    Hypotheses (Plain : forall c d, get_class P c = Some d -> c_tvars d = None) (NoDes : p_des P = [])
      (Own : get_class P (c_id d) = Some d) (Names : names_ok P d) (Lits : literals_ok P d) (Un : unions_ok P d).

    Lemma reads t : within d t -> forall n cx cfg, x_g cx = de_globals P d -> x_cls cx = d ->
      forall rho a x e v, points n cx d cfg rho a x -> de_ty P W cfg a t = Ok e -> eval P W (run P W K n) cx rho e = Ok v ->
      Reads (c_tagging d) (x_reuse cx) (x_dn cx) t (d_named cfg) (negb (d_suppress cfg)) x v.
    Proof.
      induction t using pytype_ind'; intros WI n0 cx cfg Glob Cls rho a x e v PT E V; try exact I;
        (try assert (WT : within d t) by (eapply within_sub; [exact WI|constructor; constructor]));
        (lazymatch type of E with de_ty _ _ _ _ ?t0 = _ =>
           assert (NG : forall c l, t0 <> TGen c l) by (intros ? ?; discriminate); destruct (core n0 cx d cfg NoDes _ _ _ _ _ _ PT NG E V) as (e0 & G & V0); clear E V NG; unfold de_gcore in G
         end).
      - eapply prim_read; try eassumption; [discriminate|exact I].
      - eapply prim_read; try eassumption; [intros _; now apply (within_name cx d Glob Names)|exact I].
      - eapply prim_read; try eassumption; [discriminate|exact I].
      - injection G as <-. injection V0 as <-. reflexivity.
      - rewrite (points_data n0 cx d cfg _ _ _ _ _ PT G) in V0. injection V0 as <-. reflexivity.
      - cbn [Reads]. destruct (optional l) eqn:OP.
        { destruct l as [|y [|z [|]]]; try discriminate OP; destruct z; try discriminate OP. cbn [optional] in OP. pose proof OP as NN. apply negb_true_iff in NN.
        cbn [is_opt] in G. rewrite OP in G. pose proof (Forall_inv H) as IHy. cbv beta in IHy. inv_bind G. inv_bind G. injection G as <-. rename a0 into ex, a1 into e1.
        assert (X : eval P W (run P W K n0) cx rho ex = Ok (VBool match x with VNone => false | _ => true end)).
        { destruct (PT) as (AL & FL & _ & IT & _ & Q). rewrite FL, AL in Hb. destruct (da_iter a || da_inner a) eqn:II; [|apply orb_false_iff in II as [II IN]; rewrite II, IN in Q].
          - inv_bind Hb. injection Hb as <-. cbn [eval]. rewrite (points_data n0 cx d cfg _ _ _ _ _ PT Hb1). reflexivity.
          - inv_bind Hb. injection Hb as <-. destruct (Q _ Hb1) as (Q1 & _). cbn [eval] in Q1 |- *. rewrite Q1. reflexivity. }
        assert (WY : within d y) by (eapply within_sub; [exact WI|eapply sub_union; [now left|constructor]]).
        cbn [eval] in V0. rewrite X in V0. cbn [bind] in V0. rewrite truthy_bool in V0.
        destruct x; try (right; split; [discriminate|eapply (IHy WY n0 cx cfg Glob Cls); [apply points_opt; exact PT|exact Hb0|exact V0]]).
        left. split; [reflexivity|]. cbn [eval] in V0. congruence. }
        assert (OP' : is_opt (TUnion l) = false) by exact OP. rewrite OP' in G. clear OP OP'. inv_bind G. injection G as <-. cbn [eval] in V0. rewrite (points_data n0 cx d cfg _ _ _ _ _ PT Hb) in V0. cbn [bind] in V0.
        destruct n0 as [|n0]; [discriminate V0|]. cbn [run step] in V0. rewrite Cls, find_union_ok in V0; [|exact Un|apply WI; constructor]. cbn [of_option bind] in V0. inv_bind V0. rename a1 into arms.
        assert (MEM : forall t, In t l -> within d t) by (intros u Hu; eapply within_sub; [exact WI|eapply sub_union; [exact Hu|constructor]]).
        clear -V0 Hb0 H MEM NoDes Names Un Own Plain Lits. unfold render_union_de in Hb0. revert arms Hb0 V0.
        induction H as [|t l Ht F IH]; intros arms E V; cbn [mapM] in E; [injection E as <-; discriminate V|].
        inv_bind E. inv_bind Hb. destruct (arm_lits_ok t && lit_ok (typename P t)); [|discriminate Hb]. injection Hb as <-. inv_bind E. injection E as <-. cbn [run_union_de] in V.
        set (cy := de_ctx P d (x_reuse cx) (x_dn cx) None None None) in *.
        destruct (run_arm P W (run P W K n0) cy t a0 x) as [w| |] eqn:RA; cbn [catch] in V; [|right; exact (IH ltac:(intros u Hu; apply MEM; now right) _ Hb V)|discriminate V].
        injection V as <-. left. unfold run_arm in RA. inv_bind RA. inv_bind RA. inv_bind RA. inv_bind RA. inv_bind RA. injection RA as <-.
        eexists. split; [apply (arm_payload P d (conj Names (conj Un Lits)) cy); [reflexivity|eassumption]|].
        split; [intros t1 Q; change (x_g cy) with (de_globals P d) in Hb4; rewrite (resolve_denoted P d (conj Names (conj Un Lits)) t (proj1 (proj2 (MEM t ltac:(now left)))) t1 Q) in Hb4; injection Hb4 as <-; destruct (bear P W a3 t1); [reflexivity|discriminate Hb5]|].
        refine (Ht (MEM t ltac:(now left)) n0 cy (union_de_cfg d) eq_refl eq_refl _ _ _ _ _ _ Hb0 _); [|eassumption].
        do 2 (split; [reflexivity|]). split; [now right|]. split; [discriminate|]. split; [now left|]. change (da_inner union_de_arg) with false. cbv iota. intros k0 K0.
        assert (k0 = "fake_key") by (unfold da_key in K0; cbn in K0; congruence). subst k0. cbn. auto.
      - inv_bind G. inv_bind G. injection G as <-. destruct (comp n0 cx d cfg _ _ _ _ t _ _ _ _ _ PT WT (fun WT => IHt WT n0 cx cfg Glob Cls) Hb Hb0 V0) as (l & l' & A & B & C).
        injection C as <-. exists l, l'. auto.
      - assert (G' : exists e dat, de_ty P W cfg (inner_arg a "v" (EVar "v")) t = Ok e /\ da_data W a (TSet k t) = Ok dat /\
          e0 = EComp match k with SkFrozen => KFrozen | _ => KSet end e dat)
          by (destruct k; inv_bind G; inv_bind G; injection G as <-; eauto).
        destruct G' as (e1 & dat & G1 & G2 & ->).
        destruct (comp n0 cx d cfg _ _ _ _ t _ _ _ _ _ PT WT (fun WT => IHt WT n0 cx cfg Glob Cls) G1 G2 V0) as (l & l' & A & B & C).
        destruct (set_of match k with SkFrozen => KFrozen | _ => KSet end l' v ltac:(now destruct k) C) as (s & O & ->). exists l, l', s. auto.
      - inv_bind G. inv_bind G. injection G as <-. destruct (comp n0 cx d cfg _ _ _ _ t _ _ _ _ _ PT WT (fun WT => IHt WT n0 cx cfg Glob Cls) Hb Hb0 V0) as (l & l' & A & B & C).
        injection C as <-. exists l, l'. auto.
      - inv_bind G. inv_bind G. injection G as <-. rename a0 into ek, a1 into dat.
        cbn [eval] in V0. fold (eval P W (run P W K n0) cx rho (EMapComp ek (EVar "v") dat)) in V0. inv_bind V0. rename a0 into w.
        destruct (mapcomp n0 cx rho x ek (EVar "v") dat w (points_data n0 cx d cfg _ _ _ _ _ PT Hb0) Hb1) as (k & l & l' & m & -> & A & B & ->). injection V0 as <-.
        exists k, l, l', m. split; [reflexivity|]. split; [|split; [exact B|reflexivity]]. clear B Hb1.
        revert A. apply weaken. intros kv kv' [A1 A2]. split; [|cbn in A2; congruence].
        eapply (IHt WT n0 cx cfg Glob Cls); [|exact Hb|exact A1]. eapply points_inner; [exact PT|reflexivity].
      - inv_bind G. inv_bind G. inv_bind G. rename a0 into ek, a1 into evv, a2 into dat.
        assert (W1 : within d t1) by (eapply within_sub; [exact WI|apply sub_dict_k; constructor]).
        assert (W2 : within d t2) by (eapply within_sub; [exact WI|apply sub_dict_v; constructor]).
        assert (G' : exists w, eval P W (run P W K n0) cx rho (EMapComp ek evv dat) = Ok w /\ (forall m, w = VMap MDict m -> v = VMap match k with DkDefault => MDefault (factory_name P t2) | _ => MDict end m)).
        { destruct k; injection G as <-; try (exists v; split; [exact V0|intros; assumption]).
          change (eval P W (run P W K n0) cx rho (EDefDict (factory_name P t2) (EMapComp ek evv dat))) with
            (if builtin_factory (factory_name P t2) || has_some (slookup (factory_name P t2) (x_g cx)) then
               v <- eval P W (run P W K n0) cx rho (EMapComp ek evv dat) ;; match v with VMap _ l => Ok (VMap (MDefault (factory_name P t2)) l) | _ => Raise XType end
             else Raise XName) in V0.
          destruct (builtin_factory _ || _); [|discriminate V0]. inv_bind V0. exists a0. split; [exact Hb2|]. intros m ->. congruence. }
        destruct G' as (w & V1 & V2).
        destruct (mapcomp n0 cx rho x ek evv dat w (points_data n0 cx d cfg _ _ _ _ _ PT Hb1) V1) as (k0 & l & l' & m & -> & A & B & ->).
        exists k0, l, l', m. split; [reflexivity|]. split; [|split; [exact B|now apply V2]]. clear B V1 V2 V0.
        revert A. apply weaken. intros kv kv' [A1 A2]. split.
        + destruct (is_num_key t1) eqn:NK.
          * injection Hb as <-. cbn [eval slookup] in A1. rewrite String.eqb_refl in A1. cbn [of_option bind] in A1.
            assert (RS : resolve P (x_g cx) t1 = Ok t1) by (destruct t1; try discriminate NK; [reflexivity|now apply (within_name cx d Glob Names)]).
            rewrite RS in A1. cbn [bind] in A1. now apply coerced in A1.
          * eapply (IHt1 W1 n0 cx cfg Glob Cls); [|exact Hb|exact A1]. eapply points_inner; [exact PT|reflexivity].
        + eapply (IHt2 W2 n0 cx cfg Glob Cls); [|exact Hb0|exact A2]. eapply points_inner; [exact PT|reflexivity].
      - destruct l as [|t0 ts]; [discriminate G|]. inv_bind G. inv_bind G. injection G as <-. rename a0 into dat, a1 into es0.
        change (eval P W (run P W K n0) cx rho (ETuple es0)) with (l' <- mapM (eval P W (run P W K n0) cx rho) es0 ;; Ok (VSeq KTuple l')) in V0. inv_bind V0. injection V0 as <-. cbn [Reads]. exists a0. split; [reflexivity|].
        eapply (tuple_read n0 cx d cfg NoDes); [exact PT|eapply points_data; eassumption|eapply Forall_impl; [|exact H]; intros u Hu WU; exact (Hu WU n0 cx cfg Glob Cls)| |exact Hb0|exact Hb1].
        intros u Hu. eapply within_sub; [exact WI|]. eapply sub_tuple; [exact Hu|constructor].
      - inv_bind G. inv_bind G. injection G as <-. destruct (comp n0 cx d cfg _ _ _ _ t _ _ _ _ _ PT WT (fun WT => IHt WT n0 cx cfg Glob Cls) Hb0 Hb V0) as (l & l' & A & B & C).
        injection C as <-. exists l, l'. auto.
      - cbn [Reads]. destruct b as [k0|k0|k0| | |]; try (inv_bind G; injection G as <-; cbn [eval] in V0; rewrite (points_data n0 cx d cfg _ _ _ _ _ PT Hb) in V0; cbn [bind] in V0).
        + inv_bind V0. injection V0 as <-. constructor. now apply iter_elements.
        + inv_bind V0. destruct (set_of KSet _ _ eq_refl V0) as (s & (_ & O) & ->). apply iter_elements in Hb0. eapply md_set; eassumption.
        + destruct k0; try discriminate G; rewrite (points_data n0 cx d cfg _ _ _ _ _ PT G) in V0; injection V0 as <-; constructor; discriminate.
        + inv_bind V0. injection V0 as <-. constructor. now apply iter_elements.
        + inv_bind V0. injection V0 as <-. constructor. now apply iter_elements.
        + now apply made_counter.
      - inv_bind G. injection G as <-. cbn [eval] in V0. rewrite (within_name cx d Glob Names _ WI eq_refl) in V0. cbn [bind] in V0. rewrite (points_prim n0 cx d cfg _ _ _ _ _ PT Hb) in V0. cbn [bind] in V0.
        now apply enum_read.
      - intros NO. unfold de_class in G. rewrite (proj1 (proj2 PT)) in G. inv_bind G. rename a0 into dat. assert (PA := proj1 (proj2 (proj2 (proj2 (proj2 PT))))).
        assert (X : exists d', get_class P c = Some d' /\ run P W K n0 (QDe d' x (d_named cfg) (Some (x_reuse cx)) (x_dn cx) (x_mg cx) (x_mgtv cx) (da_targs a)) = Ok v).
        { assert (NM : eval P W (run P W K n0) cx rho (EDeFn (DtName (TClass c)) dat (d_named cfg) (da_targs a)) = Ok v -> exists d', get_class P c = Some d' /\ run P W K n0 (QDe d' x (d_named cfg) (Some (x_reuse cx)) (x_dn cx) (x_mg cx) (x_mgtv cx) (da_targs a)) = Ok v).
          { intros V. cbn [eval] in V. rewrite (within_name cx d Glob Names _ WI eq_refl) in V. cbn [bind] in V. rewrite (points_data n0 cx d cfg _ _ _ _ _ PT Hb) in V. destruct (get_class P c) as [d'|]; [|discriminate V]. exists d'. split; [reflexivity|exact V]. }
          destruct PA as [PA|PA]; rewrite PA in G; injection G as <-; [exact (NM V0)|].
          destruct (String.eqb (c_id d) c) eqn:EC; [|exact (NM V0)].
          apply String.eqb_eq in EC. subst c. exists d. split; [exact Own|]. cbn [eval] in V0. rewrite (points_data n0 cx d cfg _ _ _ _ _ PT Hb) in V0. cbn [bind] in V0. now rewrite Cls in V0. }
        destruct X as (d' & GD & R). exists (S n0).
        replace ((if d_named cfg then from_dict P W K (S n0) else from_tuple P W K (S n0)) (TagExternal, TClass c) x (Some (x_reuse cx)) (x_dn cx))
          with (run P W K (S n0) (QFromObj (TagExternal, TClass c) x (d_named cfg) (Some (x_reuse cx)) (x_dn cx))) by (now destruct (d_named cfg)).
        rewrite (from_obj_eq P W K n0 TagExternal (TClass c) d').
        + rewrite (run_params P W K Plain n0 d' x (d_named cfg) _ _ _ _ _ (x_mg cx) (x_mgtv cx) (da_targs a) (Plain _ _ GD)), R. reflexivity.
        + exists c. split; [reflexivity|]. split; [exact GD|]. unfold first_de. now rewrite NoDes.
        + cbn [unalias]. destruct x; try reflexivity; try (destruct k; reflexivity). cbn [type_is]. apply String.eqb_neq. intros ->. now apply (NO _ eq_refl).
      - inv_bind G. injection G as <-. cbn [eval] in V0. unfold literal_args in V0.
        destruct (find _ (rev (iter_literals P (x_cls cx)))) as [u|] eqn:FN; [|discriminate V0]. apply find_some in FN as [FN1 FN2]. apply in_rev in FN1. apply String.eqb_eq in FN2.
        assert (u = l).
        { rewrite Cls in FN1. apply Lits; [|apply WI; constructor|now symmetry in FN2]. pose proof (proj1 (Forall_forall _ _) (iter_literals_sound P d)) as S1. auto. }
        subst u. inv_bind V0. rewrite (points_data n0 cx d cfg _ _ _ _ _ PT Hb) in V0. cbn [bind] in V0. destruct (existsb _ l) eqn:EX; [|discriminate V0]. injection V0 as <-.
        split; [reflexivity|]. apply existsb_exists in EX. exact EX.
      - inv_bind G. injection G as <-. cbn [eval] in V0. cbn [bind] in V0. rewrite (points_data n0 cx d cfg _ _ _ _ _ PT Hb) in V0. cbn [bind] in V0. rewrite (within_name cx d Glob Names _ WI eq_refl) in V0. cbn [bind call_ctor] in V0.
        rewrite !truthy_bool in V0. cbn [Reads]. destruct (x_reuse cx); [|right; auto]. destruct (named_inst P x (TStr k)) eqn:NI.
        + left. split; [reflexivity|]. split; [|congruence]. now apply (isa_instance P x (TStr k) eq_refl).
        + right. split; [right|exact V0]. intros Q. apply (isa_instance P x (TStr k) eq_refl) in Q. cbn [isa] in Q. congruence.
      - inv_bind G. injection G as <-. cbn [eval] in V0. cbn [bind] in V0. rewrite (points_data n0 cx d cfg _ _ _ _ _ PT Hb) in V0. cbn [bind] in V0. rewrite (within_name cx d Glob Names _ WI eq_refl) in V0. cbn [bind] in V0.
        rewrite !truthy_bool in V0. cbn [Reads]. destruct (x_reuse cx); [|right; auto]. destruct (named_inst P x (TDate k)) eqn:NI.
        + left. split; [reflexivity|]. split; [|congruence]. now apply (isa_instance P x (TDate k) eq_refl).
        + right. split; [right|exact V0]. intros Q. apply (isa_instance P x (TDate k) eq_refl) in Q. cbn [isa] in Q. congruence.
      - cbn [Reads]. eapply (IHt WT n0 cx cfg Glob Cls); eassumption.
    Qed.
  End Value.

  (** * C63 *)

  (** Programs without global deserializers and without generic classes *)
  Definition ordinary (d : classdef) : Prop :=
    p_des P = [] /\ (forall c d, get_class P c = Some d -> c_tvars d = None) /\
    names_ok P d /\ literals_ok P d /\ unions_ok P d.

  (** No deserializer applies to the field: it is marked default_deserializer, or neither it nor the class has one. *)
  Definition by_default (d : classdef) (f : fielddef) : Prop :=
    f_deserializer f = Some FDefault \/ f_deserializer f = None /\ c_class_de d = None /\ c_deserializer d = None.

  (** Every attribute read from an entry of the mapping is what [Reads] says of the annotation and the entry. *)
  Theorem C63_reads n tg t d m kvs ro dn o f k x :
    targets P t d -> get_class P (c_id d) = Some d -> dictlike d -> ordinary d ->
    In f (c_fields d) -> read f = true -> f_flatten f = false -> by_default d f -> f_alias f = [] ->
    wire_name W d f = Some k -> skey P kvs k = Some x ->
    from_dict P W K n (tg, t) (VMap m kvs) ro dn = Ok o ->
    exists attrs v, c_post d (VObj (c_id d) attrs) = Ok o /\ slookup (f_name f) attrs = Some v /\
      Reads (c_tagging d) match ro with Some b => b | None => c_reuse d end dn (f_type f) true (coerces d) x v.
  Proof.
    intros HT OWN HD (ND & PL & NO & LO & UO) Hf R FL FD AL WN SK H.
    destruct (from_dict_object P W K _ _ _ _ _ _ _ _ HT HD (map_not_inst _ _ _ _ _ HT) H) as (n' & known & attrs & _ & _ & A & _ & B & _).
    destruct (B f Hf R) as (v & V1 & V2 & _). exists attrs, v. split; [exact A|]. split; [exact V1|].
    apply takes_plain in V2; [|exact FL]. unfold de_value in V2. inv_bind V2. rename a into e. 
    assert (UM : unmade (de_cfg d true) (fieldarg d f data_var)) by
      (destruct FD as [FD|(FD & NC & _)]; [left|right; split; [|exact NC]]; cbn [fieldarg field_arg da_deser]; now rewrite FD).
    assert (RN : de_render P W (de_cfg d true) (fieldarg d f data_var) (f_type f) = de_ty P W (de_cfg d true) (fieldarg d f data_var) (f_type f)).
    { destruct FD as [FD|(_ & _ & NL)]; [|now apply render_nolegacy]. unfold de_render. destruct (d_legacy _); [|reflexivity]. cbn [fieldarg field_arg da_deser]. now rewrite FD. }
    rewrite RN in Hb.
    assert (NP : named_plainly W d f) by (now left).
    assert (RF : f_skip f = false) by (unfold read in R; destruct (f_skip f); [|reflexivity]; cbn in R; rewrite ?andb_false_r in R; discriminate R).
    change match ro with Some b => b | None => c_reuse d end with (x_reuse (top_ctx P d t ro dn)). change dn with (x_dn (top_ctx P d t ro dn)) at 2. replace (coerces d) with (negb (d_suppress (de_cfg d true))) by (cbn [de_cfg d_suppress]; unfold coerces; now destruct (c_check d)).
    refine (reads d PL ND OWN NO LO UO (f_type f) _ n' (top_ctx P d t ro dn) (de_cfg d true) eq_refl eq_refl _ _ x _ v _ Hb V2).
    - split; [|split]; intros; [eapply reach_field; eassumption|eapply iter_types_field; eassumption|eapply iter_unions_field; eassumption].
    - split; [exact AL|]. split; [exact FL|]. split; [exact UM|]. split; [discriminate|]. split; [now right|].
      cbn [fieldarg field_arg da_inner da_iter]. intros k0 K0. cbn [da_var].
      assert (k0 = k) by (apply key_wire in K0; congruence). subst k0. split; [rewrite eval_get, SK; reflexivity|]. split; [rewrite eval_key; now apply getitem_map|].
      assert (Q : py_in P k (VMap m kvs) = Ok true) by (rewrite py_in_map, SK; reflexivity).
      change ((b <- py_in P k (VMap m kvs) ;; Ok (VBool b)) = Ok (VBool true)). rewrite Q. reflexivity.
  Qed.

  (** *** Sequences *)
  Lemma iter_nth {A B} (R : nat -> A -> res B) fs : forall k l i f, mapMi_from R k fs = Ok l -> nth_error fs i = Some f ->
    exists e, R (k + i) f = Ok e /\ nth_error l i = Some e.
  Proof.
    induction fs as [|g fs IH]; intros k l i f H N; [destruct i; discriminate N|]. cbn [mapMi_from] in H. inv_bind H. inv_bind H. injection H as <-.
    destruct i as [|i]; cbn [nth_error] in N |- *.
    - injection N as <-. rewrite Nat.add_0_r. eauto.
    - rewrite <- Nat.add_succ_comm. eauto.
  Qed.
  Lemma each_nth {A B} (g : A -> res B) l l' : mapM g l = Ok l' -> forall i c, nth_error l i = Some c -> exists w, g c = Ok w /\ nth_error l' i = Some w.
  Proof.
    intros H. apply mapM_Ok in H. induction H as [|a b l l' E F IH]; intros [|i] c N; try discriminate N; cbn [nth_error] in *; [injection N as <-; eauto|auto].
  Qed.
  Lemma named_nth (l : list (string * pyval)) i k v : NoDup (map fst l) -> nth_error l i = Some (k, v) -> slookup k l = Some v.
  Proof.
    revert i. induction l as [|[k' v'] l IH]; intros i ND N; [destruct i; discriminate N|]. cbn [map fst] in ND. inversion ND as [|? ? N1 N2]; subst. cbn [slookup].
    destruct i as [|i]; cbn [nth_error] in N; [injection N as <- <-; now rewrite String.eqb_refl|].
    destruct (String.eqb_spec k' k) as [->|]; [|eauto]. elim N1. change k with (fst (k, v)). apply in_map. eapply nth_error_In. exact N.
  Qed.
  Lemma some_names p (l : list fielddef) : NoDup (map f_name l) -> NoDup (map f_name (filter p l)).
  Proof.
    induction l as [|f l IH]; intros ND; [constructor|]. cbn [map] in ND. inversion ND as [|? ? N1 N2]; subst. cbn [filter]. destruct (p f); [|auto]. cbn [map]. constructor; auto.
    intros H. apply N1. apply in_map_iff in H as [g [<- Hg]]. apply filter_In in Hg as [Hg _]. now apply in_map.
  Qed.
  Lemma bound_nth params : forall pos b i g v, bind_pos params pos = Some b -> nth_error params i = Some g -> nth_error pos i = Some v ->
    nth_error b i = Some (f_name g, v).
  Proof.
    induction params as [|f r IH]; intros pos b i g v B N1 N2; [destruct i; discriminate N1|]. destruct pos as [|w pos]; [destruct i; discriminate N2|]. cbn [bind_pos] in B.
    destruct (bind_pos r pos) as [b'|] eqn:E; [|discriminate B]. injection B as <-. destruct i as [|i]; cbn [nth_error] in *; [congruence|eauto].
  Qed.
  Lemma bound_names params : forall pos b, bind_pos params pos = Some b -> exists q, map f_name params = map fst b ++ q.
  Proof.
    induction params as [|f r IH]; intros pos b B; destruct pos as [|w pos]; cbn [bind_pos] in B; try discriminate B; try (injection B as <-; eexists; reflexivity).
    destruct (bind_pos r pos) as [b'|] eqn:E; [|discriminate B]. injection B as <-. destruct (IH _ _ E) as (q & Q). exists q. cbn. now rewrite Q.
  Qed.
  Lemma prefix_names {A} (l q : list A) : NoDup (l ++ q) -> NoDup l.
  Proof.
    induction l as [|a l IH]; intros H; [constructor|]. cbn [app] in H. inversion H as [|? ? H1 H2]; subst. constructor; [|auto]. intros I. apply H1. apply in_app_iff. now left.
  Qed.

  (** The fields that are read take the items of a sequence one after the other, and the values go to the parameters of the
      constructor one after the other.  These are the same fields unless a field that is not read comes before others. *)
  Definition parameter (f : fielddef) : bool := f_init f && negb (f_kw_only f).
  Theorem C63_from_tuple n tg t d k l ro dn o i f g x :
    targets P t d -> get_class P (c_id d) = Some d -> dictlike d -> ordinary d ->
    nth_error (filter read (c_fields d)) i = Some f -> nth_error (filter parameter (c_fields d)) i = Some g ->
    f_flatten f = false -> by_default d f -> f_alias f = [] -> In k [KList; KTuple; KDeque] -> nth_error l i = Some x ->
    from_tuple P W K n (tg, t) (VSeq k l) ro dn = Ok o ->
    exists attrs v, c_post d (VObj (c_id d) attrs) = Ok o /\ slookup (f_name g) attrs = Some v /\
      Reads (c_tagging d) match ro with Some b => b | None => c_reuse d end dn (f_type f) false (coerces d) x v.
  Proof.
    intros HT OWN (TR & DN) (ND & PL & NO & LO & UO) Nf Ng FL FD AL HK NX H.
    assert (TI : type_is (VSeq k l) (unalias t) = false).
    { destruct HT as (c & HC & _). unfold class_of in HC. destruct (unalias t); try discriminate HC; destruct k; reflexivity. }
    unfold from_tuple in H. destruct (from_obj_inv P W K _ _ _ _ _ _ _ _ _ HT TI H) as (m & -> & R). clear H.
    cbn [run step render_de] in R. inv_bind R. unfold render_from_iter in Hb. rewrite TR in Hb. inv_bind Hb. apply defields_same in Hb0. subst a0. inv_bind Hb. injection Hb as <-. rename a0 into les.
    rewrite <- (filter_ext_in' read renderable) in Hb0 by (intros; symmetry; apply renderable_read). rewrite <- (filter_ext_in' read renderable) in R by (intros; symmetry; apply renderable_read).
    cbv zeta in R. cbn [run_de_body] in R. inv_bind R. rename a into vals. unfold run_ctor in R.
    destruct (iter_nth _ _ _ _ _ _ Hb0 Nf) as (fe & E1 & N1). cbn [Nat.add] in E1. inv_bind E1. injection E1 as <-. rename a into e.
    destruct (each_nth _ _ _ Hb _ _ N1) as (nv & E2 & N2). cbn [fst snd] in E2. inv_bind E2. injection E2 as <-. rename a into v, Hb1 into RE, Hb2 into EV.
    assert (VN : slookup (f_name f) vals = Some v).
    { eapply named_nth; [|exact N2]. replace (map fst vals) with (map f_name (filter read (c_fields d))); [now apply some_names|].
      transitivity (map fst les).
      - clear -Hb0. revert les Hb0. generalize 0. induction (filter read (c_fields d)) as [|h r IH]; intros j les E; cbn [mapMi_from] in E; [injection E as <-; reflexivity|].
        inv_bind E. inv_bind E. injection E as <-. inv_bind Hb. injection Hb as <-. cbn [map fst]. f_equal. eauto.
      - clear -Hb. apply mapM_Ok in Hb. induction Hb as [|a b l1 l2 E F IH]; [reflexivity|]. inv_bind E. injection E as <-. cbn [map fst]. now rewrite IH. }
    unfold split_args in R. set (val := fun y => match slookup y vals with Some v => v | None => VNone end) in R.
    assert (S1 : forall r : list fielddef, filter (fun a : string * bool => snd a) (map (fun f => (f_name f, false)) r) = []) by (induction r; auto).
    assert (S2 : forall r : list fielddef, filter (fun a : string * bool => negb (snd a)) (map (fun f => (f_name f, false)) r) = map (fun f => (f_name f, false)) r)
      by (induction r as [|h r IH]; [reflexivity|cbn; now rewrite IH]).
    rewrite S1, S2 in R.
    cbn [map] in R. rewrite map_map in R. cbn [fst x_cls de_ctx] in R. unfold construct_user in R.
    destruct (construct P W d _ _) as [o'| |] eqn:C; try discriminate R. injection R as ->. unfold construct in C.
    destruct (bind_pos _ _) as [b|] eqn:B; [|discriminate C]. rewrite app_nil_r in C.
    assert (PN : nth_error (map (fun f => val (f_name f)) (filter read (c_fields d))) i = Some v).
    { rewrite nth_error_map, Nf. cbn [option_map]. unfold val. now rewrite VN. }
    assert (GN : slookup (f_name g) b = Some v).
    { eapply named_nth; [|eapply bound_nth; [exact B|exact Ng|exact PN]]. destruct (bound_names _ _ _ B) as (q & Q).
      apply (prefix_names _ q). rewrite <- Q. now apply some_names. }
    destruct (checked d && _); [discriminate C|]. destruct (no_dup_args _ _ _); [|discriminate C]. inv_bind C. rename a into attrs. exists attrs, v. split; [exact C|].
    unfold init_fields in Hb1. inv_bind Hb1. injection Hb1 as <-. apply mapM_Ok in Hb2.
    apply nth_error_In, filter_In in Ng as [Hg PG]. unfold parameter in PG. apply andb_prop in PG as [IG _]. apply nth_error_In, filter_In in Nf as [Hf Rf].
    split.
    { destruct (init_lookup b (c_fields d) a DN Hb2 g Hg) as (out & E & ->). unfold init_one in E. rewrite IG, GN in E. injection E as <-. cbn [slookup]. now rewrite String.eqb_refl. }
    assert (UM : unmade (de_cfg d false) (field_arg d f i true None data_var)) by
      (destruct FD as [FD|(FD & NC & _)]; [left|right; split; [|exact NC]]; cbn [field_arg da_deser]; now rewrite FD).
    assert (RN : de_render P W (de_cfg d false) (field_arg d f i true None data_var) (f_type f) = de_ty P W (de_cfg d false) (field_arg d f i true None data_var) (f_type f)).
    { destruct FD as [FD|(_ & _ & NL)]; [|unfold de_render; cbn [de_cfg d_legacy]; now rewrite NL]. unfold de_render. destruct (d_legacy _); [|reflexivity]. cbn [field_arg da_deser]. now rewrite FD. }
    rewrite RN in RE.
    assert (RF : f_skip f = false) by (unfold read in Rf; destruct (f_skip f); [|reflexivity]; cbn in Rf; rewrite ?andb_false_r in Rf; discriminate Rf).
    set (cx := de_ctx P d (flag ro (c_reuse d)) dn (Some (unalias t)) (c_tvars d) None) in *.
    change match ro with Some b => b | None => c_reuse d end with (x_reuse cx). change dn with (x_dn cx).
    replace (coerces d) with (negb (d_suppress (de_cfg d false))) by (cbn [de_cfg d_suppress]; unfold coerces; now destruct (c_check d)).
    refine (reads d PL ND OWN NO LO UO (f_type f) _ m cx (de_cfg d false) eq_refl eq_refl _ _ x _ v _ RE EV).
    - clear Hg. split; [|split]; intros; [eapply reach_field; eassumption|eapply iter_types_field; eassumption|eapply iter_unions_field; eassumption].
    - split; [exact AL|]. split; [exact FL|]. split; [exact UM|]. split; [discriminate|]. split; [now right|].
      cbn [field_arg da_inner da_iter da_var da_index]. cbn. unfold nth_opt. rewrite ?nth_opt_error. destruct HK as [<-|[<-|[<-|[]]]]; now rewrite NX.
  Qed.

  (** C36 holds of a field if those before it are read exactly when they are parameters: none is skipped, none is keyword-only.
      Compare [C36_skip_refuted] and [C36_kw_only_refuted]. *)
  Theorem C36_own_partial n tg t d k l ro dn o l1 f l2 x :
    targets P t d -> get_class P (c_id d) = Some d -> dictlike d -> ordinary d ->
    c_fields d = l1 ++ f :: l2 -> read f = true -> f_kw_only f = false -> (forall g, In g l1 -> read g = parameter g) ->
    f_flatten f = false -> by_default d f -> f_alias f = [] -> In k [KList; KTuple; KDeque] -> nth_error l (List.length (filter read l1)) = Some x ->
    from_tuple P W K n (tg, t) (VSeq k l) ro dn = Ok o ->
    exists attrs v, c_post d (VObj (c_id d) attrs) = Ok o /\ slookup (f_name f) attrs = Some v /\
      Reads (c_tagging d) match ro with Some b => b | None => c_reuse d end dn (f_type f) false (coerces d) x v.
  Proof.
    intros HT OWN DL OR EQ R KW BEF FL FD AL HK NX H.
    assert (E : filter parameter l1 = filter read l1) by (apply filter_ext_in; intros g I; symmetry; exact (BEF g I)).
    assert (PF : parameter f = true) by (unfold read in R; unfold parameter; rewrite KW; destruct (f_init f); [reflexivity|discriminate R]).
    apply (C63_from_tuple n tg t d k l ro dn o (List.length (filter read l1)) f f x HT OWN DL OR); try assumption; rewrite EQ.
    - rewrite filter_app. cbn [filter]. rewrite R. now rewrite nth_error_app2, Nat.sub_diag.
    - rewrite filter_app. cbn [filter]. rewrite PF, E. now rewrite nth_error_app2, Nat.sub_diag.
  Qed.
End Elem.

(** * Examples *)

Module ElemEx.
  Definition ty := TDict DkDict TInt (TList LList (TOpt (TClass "B"))).
  Definition pair := TTuple [TInt; TString; TNone].
  Definition A := cls "A" [fld "m" ty; fld "t" pair; fld "c" (TCounter TString)].
  Definition B := cls "B" [fld "n" TInt].
  Definition P := prog [A; B] [].
  Definition L := expand P (expand P (expand P (expand P [ty; pair; TCounter TString; TClass "A"; TClass "B"; TInt; TString; TNone]))).
  (** Two keys that are the same number, a tuple with too many and one with too few elements *)
  Definition md := VMap MDict [(VStr "1", vlist [VNone]); (VInt 2, VSeq KTuple [dict [("n", VInt 5)]; VNone]); (VInt 1, vlist [])].
  Definition data t := [(VStr "m", md); (VStr "t", t); (VStr "c", VMap MDict [(VStr "a", VInt 7)])].
  Definition long := vlist [VInt 1; VStr "x"; VInt 9; VInt 9].
  Definition short := vlist [VInt 1; VStr "x"].
  Definition out : list (string * pyval) :=
    [("m", VMap MDict [(VInt 1, vlist []); (VInt 2, vlist [VObj "B" [("n", VInt 5)]; VNone])]);
     ("t", VSeq KTuple [VInt 1; VStr "x"; VNone]); ("c", VMap MCounter [(VStr "a", VInt 7)])].
  Example reads_long : from_dict P W0 [] 9 (TagExternal, TClass "A") (VMap MDict (data long)) None None = Ok (VObj "A" out).
  Proof. vm_compute. reflexivity. Qed.
  Example reads_short : from_dict P W0 [] 9 (TagExternal, TClass "A") (VMap MDict (data short)) None None = Ok (VObj "A" out).
  Proof. vm_compute. reflexivity. Qed.

  Lemma ord : ordinary P A.
  Proof.
    repeat split.
    - intros c d H. unfold get_class in H. cbn [P prog p_classes find_class] in H.
      destruct (String.eqb (c_id A) c); [injection H as <-; reflexivity|]. destruct (String.eqb (c_id B) c); [injection H as <-; reflexivity|discriminate H].
    - apply (names_okb_ok P A L); vm_compute; reflexivity.
    - apply (literals_okb_ok P A L); vm_compute; reflexivity.
    - apply (unions_okb_ok P A L); vm_compute; reflexivity.
  Qed.
  Lemma reads_field n o f k x t : In f (c_fields A) -> f = fld k (f_type f) -> skey P (data t) k = Some x ->
    from_dict P W0 [] n (TagExternal, TClass "A") (VMap MDict (data t)) None None = Ok o ->
    exists attrs v, o = VObj "A" attrs /\ slookup k attrs = Some v /\ Reads P W0 [] TagExternal true None (f_type f) true false x v.
  Proof.
    intros Hf E SK H. rewrite E in Hf |- *.
    destruct (C63_reads P W0 [] n TagExternal (TClass "A") A MDict (data t) None None o (fld k (f_type f)) k x) as (attrs & v & H1 & H2 & H3); try assumption; try reflexivity.
    - exists "A". repeat split.
    - split; [reflexivity|]. repeat constructor; simpl; intuition discriminate.
    - exact ord.
    - right. repeat split.
    - exists attrs, v. split; [injection H1 as <-; reflexivity|]. auto.
  Qed.

  (** The key 1 has the value of the last entry read as 1. *)
  Example C63_dict_ex : exists m, slookup "m" out = Some (VMap MDict m) /\ dget (enum_scalar P) m (VInt 1) = Some (vlist []).
  Proof.
    destruct (reads_field 9 (VObj "A" out) (fld "m" ty) "m" md long) as (attrs & v & E & S1 & R); [now left|reflexivity|reflexivity|exact reads_long|].
    injection E as <-. destruct R as (k & l & l' & m & X & F & (_ & EN & _) & ->). exists m. split; [exact S1|].
    injection X as <- <-. inversion F as [|? ? ? ? [A1 _] F1]; subst. inversion F1 as [|? ? ? ? [A2 _] F2]; subst. inversion F2 as [|? ? ? ? [A3 B3] F3]; subst. inversion F3; subst.
    destruct y as [k1 v1], y0 as [k2 v2], y1 as [k3 v3]. cbn in A1, A2, A3, B3. destruct A1 as [_ A1], A2 as [_ A2], A3 as [_ A3]. cbn in A1, A2, A3.
    injection A1 as <-. injection A2 as <-. injection A3 as <-. destruct B3 as (e & e' & EL & F4 & ->). inversion EL; subst; [|discriminate]. inversion F4; subst.
    rewrite EN; [reflexivity|repeat constructor|exact I].
  Qed.
  (** Elements beyond the types of a tuple are dropped; None needs no element. *)
  Example C63_tuple_ex : slookup "t" out = Some (VSeq KTuple [VInt 1; VStr "x"; VNone]).
  Proof.
    destruct (reads_field 9 (VObj "A" out) (fld "t" pair) "t" long long) as (attrs & v & E & S1 & R); [right; now left|reflexivity|reflexivity|exact reads_long|].
    injection E as <-. rewrite S1. destruct R as (l & -> & R). destruct l as [|a [|b [|c [|]]]]; cbn in R; try tauto.
    destruct R as (R1 & R2 & R3 & _). destruct R1 as [(e1 & I1 & R1)|]; [|discriminate]. destruct R2 as [(e2 & I2 & R2)|]; [|discriminate].
    assert (c = VNone) by (destruct R3 as [(e3 & _ & R3)|R3]; [exact R3|now injection R3 as <-]).
    unfold primitive in R1, R2. cbn in R1, R2. subst. inversion I1; subst; [|discriminate]. inversion I2; subst; [|discriminate]. cbn in *. congruence.
  Qed.
  (** A tuple holding a frozenset can be hashed; one holding a list cannot. *)
  Example C50_hash_ex : hashes P (VSeq KTuple [VInt 1; VSeq KFrozen [VInt 2]]) /\ ~ hashes P (VSeq KTuple [VInt 1; vlist []]).
  Proof. split; [now apply C50_hash|]. rewrite <- C50_hash. discriminate. Qed.
End ElemEx.

Module ElemUnionEx.
  Definition ty := TUnion [TInt; TClass "B"].
  Definition A := cls "A" [fld "u" ty].
  Definition B := cls "B" [fld "n" TInt].
  Definition P := prog [A; B] [].
  Definition L := expand P (expand P (expand P (expand P [ty; TClass "A"; TClass "B"; TInt]))).
  Definition data := [(VStr "u", dict [("B", dict [("n", VInt 5)])])].
  Example reads_b : from_dict P W0 [] 9 (TagExternal, TClass "A") (VMap MDict data) None None = Ok (VObj "A" [("u", VObj "B" [("n", VInt 5)])]).
  Proof. vm_compute. reflexivity. Qed.
  (** The tagged data is read by the class, not by the member int, which beartype would reject. *)
  Example C63_union_ex n o : from_dict P W0 [] n (TagExternal, TClass "A") (VMap MDict data) None None = Ok o ->
    exists attrs v m, o = VObj "A" attrs /\ slookup "u" attrs = Some v /\ from_dict P W0 [] m (TagExternal, TClass "B") (dict [("n", VInt 5)]) (Some true) None = Ok v.
  Proof.
    intros H. destruct (C63_reads P W0 [] n TagExternal (TClass "A") A MDict data None None o (fld "u" ty) "u" (dict [("B", dict [("n", VInt 5)])])) as (attrs' & v & H1 & H2 & H3); try assumption; try reflexivity.
    - exists "A". repeat split.
    - split; [reflexivity|]. repeat constructor; simpl; intuition discriminate.
    - repeat split.
      + intros c d G. unfold get_class in G. cbn [P prog p_classes find_class] in G.
        destruct (String.eqb (c_id A) c); [injection G as <-; reflexivity|]. destruct (String.eqb (c_id B) c); [injection G as <-; reflexivity|discriminate G].
      + apply (names_okb_ok P A L); vm_compute; reflexivity.
      + apply (literals_okb_ok P A L); vm_compute; reflexivity.
      + apply (unions_okb_ok P A L); vm_compute; reflexivity.
    - now left.
    - right. repeat split.
    - injection H1 as <-. exists attrs', v. cbn [f_type fld] in H3. destruct H3 as [(p & PY & BE & R)|[(p & PY & _ & R)|[]]].
      + cbn in R. unfold primitive in R. cbn in R. subst v. specialize (BE _ eq_refl). inversion PY; subst; discriminate.
      + inversion PY as [? [N|N]|? ? ? y E1 _ SK| |]; subst; try discriminate; [now elim (N "B")|]. cbn in SK. injection SK as <-.
        destruct (R ltac:(discriminate)) as (m & Q). exists m. auto.
  Qed.
End ElemUnionEx.

(** A class with deserializers of both kinds; the marker on one of its fields counts for the elements too. *)
Module ElemMarkEx.
  Definition nums := TList LList TInt.
  Definition zero : clsde := mkClsde [TInt] (fun _ _ => Ok (VInt 0)).
  Definition A :=
    {| c_id := "A"; c_name := "A"; c_fields := [with_fns None (Some FDefault) (fld "l" nums); fld "k" nums]; c_mro := []; c_rename_all := None;
       c_reuse := true; c_conv := false; c_skip_if_default := false; c_skip_if_none := false; c_serializer := None;
       c_deserializer := Some (fun _ _ => Ok VNone); c_tagging := TagExternal; c_check := TcDisabled; c_ser_class_var := false; c_class_vars := [];
       c_transparent := false; c_class_ser := None; c_class_de := Some zero; c_deny := false; c_tvars := None; c_post := fun o => Ok o; c_hashable := false |}.
  Definition P := prog [A] [].
  Definition L := [nums; TClass "A"; TInt].
  Definition data := [(VStr "l", vlist [VInt 1; VInt 2]); (VStr "k", vlist [VInt 1; VInt 2])].
  Example reads_a : from_dict P W0 [] 9 (TagExternal, TClass "A") (VMap MDict data) None None = Ok (VObj "A" [("l", vlist [VInt 1; VInt 2]); ("k", VNone)]).
  Proof. vm_compute. reflexivity. Qed.
  Example C63_mark_ex n o : from_dict P W0 [] n (TagExternal, TClass "A") (VMap MDict data) None None = Ok o ->
    exists attrs, o = VObj "A" attrs /\ slookup "l" attrs = Some (vlist [VInt 1; VInt 2]).
  Proof.
    intros H. destruct (C63_reads P W0 [] n TagExternal (TClass "A") A MDict data None None o (with_fns None (Some FDefault) (fld "l" nums)) "l" (vlist [VInt 1; VInt 2])) as (attrs' & v & H1 & H2 & H3); try assumption; try reflexivity.
    - exists "A". repeat split.
    - split; [reflexivity|]. repeat constructor; simpl; intuition discriminate.
    - repeat split.
      + intros c d G. unfold get_class in G. cbn [P prog p_classes find_class] in G.
        destruct (String.eqb (c_id A) c); [injection G as <-; reflexivity|discriminate G].
      + apply (names_okb_ok P A L); vm_compute; reflexivity.
      + apply (literals_okb_ok P A L); vm_compute; reflexivity.
      + apply (unions_okb_ok P A L); vm_compute; reflexivity.
    - now left.
    - now left.
    - injection H1 as <-. exists attrs'. split; [reflexivity|]. transitivity (Some v); [exact H2|]. destruct H3 as (l & l' & EL & F & ->). inversion EL; subst; try discriminate.
      inversion F as [|? ? ? ? R1 F1]; subst. inversion F1 as [|? ? ? ? R2 F2]; subst. inversion F2; subst. cbn in R1, R2. unfold primitive in R1, R2. cbn in R1, R2. now subst.
  Qed.
End ElemMarkEx.

(** Data in tuple form, also for the nested class.  The second item is read by the annotation of the second field that is read,
    the third field of the class, but is given to the second one, which is not to be read. *)
Module ElemTupleEx.
  Definition bs := TList LList (TClass "B").
  Definition fu := with_skip false false true (with_default (VInt 7) (fld "u" TInt)).
  Definition fw := with_default (VStr "d") (fld "w" (TTuple [TString; TString])).
  Definition A := clsx "A" [fld "m" bs; fu; fw] None TagExternal TcDisabled false false.
  Definition B := cls "B" [fld "n" TInt].
  Definition P := prog [A; B] [].
  Definition L := expand P (expand P [bs; TTuple [TString; TString]; TClass "A"; TClass "B"; TInt; TString]).
  Definition data := [vlist [VSeq KTuple [VInt 5]]; VStr "xyz"].
  Example reads_tuple : from_tuple P W0 [] 9 (TagExternal, TClass "A") (VSeq KTuple data) None None =
    Ok (VObj "A" [("m", vlist [VObj "B" [("n", VInt 5)]]); ("u", VSeq KTuple [VStr "x"; VStr "y"]); ("w", VStr "d")]).
  Proof. vm_compute. reflexivity. Qed.
  Lemma ord : ordinary P A.
  Proof.
    repeat split.
    - intros c d G. unfold get_class in G. cbn [P prog p_classes find_class] in G.
      destruct (String.eqb (c_id A) c); [injection G as <-; reflexivity|]. destruct (String.eqb (c_id B) c); [injection G as <-; reflexivity|discriminate G].
    - apply (names_okb_ok P A L); vm_compute; reflexivity.
    - apply (literals_okb_ok P A L); vm_compute; reflexivity.
    - apply (unions_okb_ok P A L); vm_compute; reflexivity.
  Qed.
  Lemma fits_class : dictlike A.
  Proof. split; [reflexivity|]. repeat constructor; simpl; intuition discriminate. Qed.
  Lemma target : targets P (TClass "A") A.
  Proof. exists "A". repeat split. Qed.
  Example C63_tuple_form_ex n o : from_tuple P W0 [] n (TagExternal, TClass "A") (VSeq KTuple data) None None = Ok o ->
    exists attrs v m, o = VObj "A" attrs /\ slookup "m" attrs = Some (vlist [v]) /\ from_tuple P W0 [] m (TagExternal, TClass "B") (VSeq KTuple [VInt 5]) (Some true) None = Ok v.
  Proof.
    intros H. destruct (C63_from_tuple P W0 [] n TagExternal (TClass "A") A KTuple data None None o 0 (fld "m" bs) (fld "m" bs) (vlist [VSeq KTuple [VInt 5]])
      target eq_refl fits_class ord eq_refl eq_refl eq_refl) as (attrs & v & H1 & H2 & l & l' & EL & F & ->); try reflexivity; try exact H; [right; repeat split|cbn; tauto|].
    injection H1 as <-. inversion EL; subst; try discriminate. inversion F as [|? y ? ? R1 F1]; subst. inversion F1; subst.
    destruct (R1 ltac:(discriminate)) as (m & Q). exists attrs, y, m. auto.
  Qed.
  Example C63_shift_ex n o : from_tuple P W0 [] n (TagExternal, TClass "A") (VSeq KTuple data) None None = Ok o ->
    exists attrs, o = VObj "A" attrs /\ slookup "u" attrs = Some (VSeq KTuple [VStr "x"; VStr "y"]).
  Proof.
    intros H. destruct (C63_from_tuple P W0 [] n TagExternal (TClass "A") A KTuple data None None o 1 fw fu (VStr "xyz")
      target eq_refl fits_class ord eq_refl eq_refl eq_refl) as (attrs & v & H1 & H2 & l' & -> & R); try reflexivity; try exact H; [right; repeat split|cbn; tauto|].
    injection H1 as <-. exists attrs. split; [reflexivity|]. transitivity (Some (VSeq KTuple l')); [exact H2|].
    destruct l' as [|a [|b [|]]]; cbn in R; try tauto. destruct R as (R1 & R2 & _). destruct R1 as [(e1 & I1 & R1)|]; [|discriminate]. destruct R2 as [(e2 & I2 & R2)|]; [|discriminate].
    unfold primitive in R1, R2. cbn in R1, R2. subst. inversion I1; subst; inversion I2; subst. cbn in *. repeat match goal with X : Some _ = Some _ |- _ => injection X as <- end. cbn in *. congruence.
  Qed.
End ElemTupleEx.

(** A field before the one that is not read is at its place, and more items than fields do no harm. *)
Module ElemOwnEx.
  Definition fa := fld "a" TInt.
  Definition fv := fld "v" (TVarTuple (TClass "B")).
  Definition fu := with_skip false false true (with_default (VInt 7) (fld "u" TInt)).
  Definition A := clsx "A" [fa; fv; fu] None TagExternal TcDisabled false false.
  Definition B := cls "B" [fld "n" TInt].
  Definition P := prog [A; B] [].
  Definition L := expand P (expand P [TVarTuple (TClass "B"); TClass "A"; TClass "B"; TInt]).
  Definition data := [VInt 1; vlist [vlist [VInt 5]]; VInt 3].
  Example reads_tuple : from_tuple P W0 [] 9 (TagExternal, TClass "A") (vlist data) None None =
    Ok (VObj "A" [("a", VInt 1); ("v", VSeq KTuple [VObj "B" [("n", VInt 5)]]); ("u", VInt 7)]).
  Proof. vm_compute. reflexivity. Qed.
  Example C36_own_ex n o : from_tuple P W0 [] n (TagExternal, TClass "A") (vlist data) None None = Ok o ->
    exists attrs v, o = VObj "A" attrs /\ slookup "v" attrs = Some (VSeq KTuple [v]).
  Proof.
    intros H. destruct (C36_own_partial P W0 [] n TagExternal (TClass "A") A KList data None None o [fa] fv [fu] (vlist [vlist [VInt 5]])) as (attrs & v & H1 & H2 & H3); try reflexivity; try exact H.
    - exists "A". repeat split.
    - split; [reflexivity|]. repeat constructor; simpl; intuition discriminate.
    - repeat split.
      + intros c d G. unfold get_class in G. cbn [P prog p_classes find_class] in G.
        destruct (String.eqb (c_id A) c); [injection G as <-; reflexivity|]. destruct (String.eqb (c_id B) c); [injection G as <-; reflexivity|discriminate G].
      + apply (names_okb_ok P A L); vm_compute; reflexivity.
      + apply (literals_okb_ok P A L); vm_compute; reflexivity.
      + apply (unions_okb_ok P A L); vm_compute; reflexivity.
    - intros g [<-|[]]. reflexivity.
    - right. repeat split.
    - cbn. tauto.
    - injection H1 as <-. destruct H3 as (l & l' & EL & F & ->). inversion EL; subst; try discriminate. inversion F as [|? y ? ? R1 F1]; subst. inversion F1; subst. exists attrs, y. auto.
  Qed.
End ElemOwnEx.

Print Assumptions C63_reads.
Print Assumptions C63_from_tuple.
Print Assumptions C36_own_partial.
Print Assumptions C50_hash.
