(** Unions: the three tagged forms, first fitting variant, foreign objects (C14-C18). *)
From Coq Require Import String List ZArith Bool Ascii Lia.
From Verif Require Import Base PyVal PyType Program Compat Syntax SeRender DeRender Eval Facts Mono Spec Cover Cache Depend SeRT DeRT Transport Decide PropsDe PropsExc Ex.
Import ListNotations.
Open Scope string_scope.
Open Scope list_scope.

(** * The generic argument only matters for instantiated generics *)
Definition set_mg (m : option pytype) (cx : ctx) : ctx :=
  mkCtx (x_cls cx) (x_g cx) (x_fns cx) (x_reuse cx) (x_conv cx) (x_skip cx) (x_dn cx) m (x_mgtv cx) (x_vta cx).
Definition no_gen (m : option pytype) : Prop := forall c l, m <> Some (TGen c l).
Definition same_req (q q' : callreq) : Prop :=
  q = q' \/ exists d da na re dn mg mg' mgtv vta, q = QDe d da na re dn mg mgtv vta /\ q' = QDe d da na re dn mg' mgtv vta /\ no_gen mg /\ no_gen mg'.

Section Mg.
  Variables (P : program) (W : world) (K : list (tagging * pytype)).

  Lemma generic_arg m m' tv va i : no_gen m -> no_gen m' -> get_generic_arg m tv va i = get_generic_arg m' tv va i.
  Proof.
    intros N N'. unfold get_generic_arg.
    assert (E : forall m, no_gen m -> match m with Some (TGen c a) => False | _ => True end) by (intros [[]|] H; auto; eapply H; reflexivity).
    pose proof (E _ N). pose proof (E _ N'). destruct m as [[]|], m' as [[]|]; try contradiction; reflexivity.
  Qed.

  Section Eval.
    Variables (call call' : callreq -> res pyval).
    Hypothesis HC : forall q q', same_req q q' -> call q = call' q'.
    Variables (m m' : option pytype).
    Hypothesis (N : no_gen m) (N' : no_gen m').

    Lemma mapM_ext_in {A B} (f g : A -> res B) l : Forall (fun a => f a = g a) l -> mapM f l = mapM g l.
    Proof. induction 1 as [|x l E _ IH]; cbn [mapM]; [reflexivity|]. now rewrite E, IH. Qed.
    Lemma mapM_ext {A B} (f g : A -> res B) l : (forall a, f a = g a) -> mapM f l = mapM g l.
    Proof. intros H. apply mapM_ext_in. now apply Forall_forall. Qed.
    Lemma bind_ext {A B} (x : res A) (f g : A -> res B) : (forall a, f a = g a) -> bind x f = bind x g.
    Proof. intros H. destruct x; cbn [bind]; auto. Qed.
    Lemma call_same q : call q = call' q. Proof. apply HC. now left. Qed.

    Lemma eval_mg cx : forall e rho, eval P W call (set_mg m cx) rho e = eval P W call' (set_mg m' cx) rho e.
    Proof.
      induction e using expr_ind'; intros rho; cbn [eval]; try reflexivity;
        repeat match goal with IH : forall rho, _ = _ |- _ => first [rewrite IH | fail 1] end; try reflexivity;
        try (apply bind_ext; intros; rewrite ?IHe, ?IHe1, ?IHe2; reflexivity).
      - apply bind_ext. intros v. apply bind_ext. intros l. f_equal. apply mapM_ext. intros. apply IHe1.
      - apply bind_ext. intros v. apply bind_ext. intros l. f_equal. apply mapM_ext. intros. now rewrite IHe1, IHe2.
      - f_equal. apply mapM_ext_in. eapply Forall_impl; [|exact H]. cbn beta. auto.
      - apply bind_ext. intros. apply call_same.
      - cbn [x_mg set_mg x_mgtv x_vta]. rewrite (generic_arg m m') by assumption. apply bind_ext. intros. apply bind_ext. intros. apply call_same.
      - apply bind_ext. intros [] ; try reflexivity. apply bind_ext. intros. apply call_same.
      - apply bind_ext. intros. apply bind_ext. intros. apply HC. right. repeat eexists; eassumption.
      - apply bind_ext. intros. apply call_same.
      - apply bind_ext. intros. apply call_same.
    Qed.

    Lemma dstmt_mg cx data ex vals s : run_dstmt P W call (set_mg m cx) data ex vals s = run_dstmt P W call' (set_mg m' cx) data ex vals s.
    Proof.
      destruct s as [x|x pr e ms]; cbn [run_dstmt]; [reflexivity|]. apply bind_ext. intros rho. now rewrite eval_mg.
    Qed.
    Lemma foldM_ext {A S} (f g : S -> A -> res S) l : (forall s a, f s a = g s a) -> forall s, foldM f l s = foldM g l s.
    Proof. intros H. induction l as [|x l IH]; intros s; cbn [foldM]; [reflexivity|]. rewrite H. apply bind_ext. auto. Qed.
    Lemma body_mg cx b data : run_de_body P W call (set_mg m cx) b data = run_de_body P W call' (set_mg m' cx) b data.
    Proof.
      destruct b as [dy ex l args|x nm e arg|l args]; cbn [run_de_body].
      - apply bind_ext. intros _. apply bind_ext. intros kvs. rewrite (foldM_ext _ (run_dstmt P W call' (set_mg m' cx) data kvs)); [reflexivity|]. intros. apply dstmt_mg.
      - cbv zeta. now rewrite eval_mg.
      - f_equal. apply mapM_ext. intros. now rewrite eval_mg.
    Qed.
  End Eval.

  Theorem run_mg n : forall q q', same_req q q' -> run P W K n q = run P W K n q'.
  Proof.
    induction n as [|n IH]; intros q q' [->|(d & da & na & re & dn & mg & mg' & mgtv & vta & -> & -> & N & N')]; try reflexivity.
    cbn [run step]. apply bind_ext. intros b. cbv zeta.
    apply (body_mg (run P W K n) (run P W K n) IH mg mg' N N' (de_ctx P d (flag re (c_reuse d)) dn None _ vta) b da).
  Qed.
End Mg.

(** * Deserialization *)

(** The type that the text of an annotation denotes in generated code: the container classes are
    forgotten (typename, compat.py:154-260), e.g. frozenset[int] is written set[int]. *)
Fixpoint denoted (t : pytype) : option pytype :=
  let fix many l := match l with
    | [] => Some []
    | x :: r => match denoted x, many r with Some y, Some l' => Some (y :: l') | _, _ => None end
    end in
  match t with
  | TPrim _ | TNone | TAny | TPrimSub _ _ | TEnum _ | TClass _ | TStr _ | TDate _ => Some t
  | TNewType _ p => Some (TPrim p)
  | TUnion l => option_map TUnion (many l)
  | TList _ a => option_map (TList LList) (denoted a)
  | TSet _ a => option_map (TSet SkSet) (denoted a)
  | TDict _ a b => match denoted a, denoted b with Some x, Some y => Some (TDict DkDict x y) | _, _ => None end
  | TDeque a => option_map TDeque (denoted a)
  | TCounter _ | TBare (BDict _) => Some (TBare (BDict DkDict))
  | TTuple [] => Some (TBare BTuple)
  | TTuple l => option_map TTuple (many l)
  | TVarTuple a => option_map TVarTuple (denoted a)
  | TBare (BList _) => Some (TBare (BList LList))
  | TBare (BSet _) => Some (TBare (BSet SkSet))
  | TBare b => Some (TBare b)
  | TLit l => if existsb (fun x => match x with LEnum _ _ => true | _ => false end) l then None else Some t
  | _ => None
  end.

Section De.
  Variables (P : program) (W : world) (K : list (tagging * pytype)).

  (** What a member of a union is deserialized from: the data itself, or for a dataclass what the
      tagging provides. *)
  Inductive payload (tg : tagging) (t : pytype) : pyval -> pyval -> Prop :=
  | pay_plain data : (forall c, t <> TClass c) \/ tg = Untagged -> payload tg t data data
  | pay_ext c m kvs x : t = TClass c -> tg = TagExternal -> skey P kvs (typename P t) = Some x -> payload tg t (VMap m kvs) x
  | pay_int c tag m kvs y : t = TClass c -> tg = TagInternal tag -> skey P kvs tag = Some y ->
      eqv P (VStr (typename P t)) y = true -> payload tg t (VMap m kvs) (VMap m kvs)
  | pay_adj c tag content m kvs y x : t = TClass c -> tg = TagAdjacent tag content -> skey P kvs tag = Some y ->
      eqv P (VStr (typename P t)) y = true -> skey P kvs content = Some x -> payload tg t (VMap m kvs) x.

  Variable d : classdef.
  Variables (re : bool) (dn : option numhook).
  Hypothesis SC : scope_ok P d.

  Lemma resolve_denoted t : (forall u, needed u = true -> sub_ty u t -> In u (iter_types P d)) ->
    forall t', denoted t = Some t' -> resolve P (de_globals P d) t = Ok t'.
  Proof.
    destruct SC as [NO _].
    assert (L : forall u, needed u = true -> In u (iter_types P d) -> resolve P (de_globals P d) u = Ok u) by (intros; now apply de_lookup).
    set (many := fix many l := match l with
      | [] => Some []
      | x :: r => match denoted x, many r with Some y, Some l' => Some (y :: l') | _, _ => None end
      end).
    assert (M : forall l, Forall (fun t => (forall u, needed u = true -> sub_ty u t -> In u (iter_types P d)) -> forall t', denoted t = Some t' -> resolve P (de_globals P d) t = Ok t') l ->
      (forall t u, In t l -> needed u = true -> sub_ty u t -> In u (iter_types P d)) -> forall l', many l = Some l' -> mapM (resolve P (de_globals P d)) l = Ok l').
    { intros l H. induction H as [|x r Hx Hr IH]; intros C l' E; cbn [many] in E; [now injection E as <-|].
      destruct (denoted x) as [y|] eqn:Ex; [|discriminate]. destruct (many r) as [lr|] eqn:Er; [|discriminate]. injection E as <-.
      cbn [mapM]. rewrite (Hx ltac:(intros; eapply C; eauto; now left) _ eq_refl). cbn [bind].
      rewrite (IH ltac:(intros; eapply C; eauto; now right) _ eq_refl). reflexivity. }
    induction t using pytype_ind'; intros C t' E; cbn [denoted] in E; fold many in E; try discriminate E;
      try (injection E as <-; apply L; [reflexivity|apply C; [reflexivity|constructor]]);
      try (injection E as <-; reflexivity);
      try (destruct (denoted t) as [a|] eqn:Ea; [|discriminate]; injection E as <-; cbn [resolve];
           rewrite (IHt ltac:(intros; apply C; [assumption|]; econstructor; eassumption) _ eq_refl); reflexivity).
    - destruct (many l) as [l'|] eqn:El; [|discriminate]. injection E as <-. cbn [resolve].
      rewrite (M l H ltac:(intros; apply C; [assumption|]; econstructor; eassumption) _ El). reflexivity.
    - destruct (denoted t1) as [a|] eqn:Ea; [|discriminate]. destruct (denoted t2) as [b|] eqn:Eb; [|discriminate]. injection E as <-.
      cbn [resolve]. rewrite (IHt1 ltac:(intros; apply C; [assumption|]; now apply sub_dict_k) _ eq_refl). cbn [bind].
      rewrite (IHt2 ltac:(intros; apply C; [assumption|]; now apply sub_dict_v) _ eq_refl). reflexivity.
    - destruct l as [|x r]; [injection E as <-; reflexivity|]. destruct (many (x :: r)) as [l'|] eqn:El; [|discriminate]. injection E as <-.
      change (resolve P (de_globals P d) (TTuple (x :: r))) with (l' <- mapM (resolve P (de_globals P d)) (x :: r) ;; Ok (TTuple l')).
      rewrite (M (x :: r) H ltac:(intros; apply C; [assumption|]; econstructor; eassumption) _ El). reflexivity.
    - destruct b; injection E as <-; reflexivity.
    - cbn [resolve]. destruct (existsb _ l); [discriminate|]. now injection E as <-.
  Qed.

  Lemma arm_payload cx t data p : x_cls cx = d -> arm_data P cx t data = Ok p <-> payload (c_tagging d) t data p.
  Proof.
    intros X. unfold arm_data. rewrite X. destruct (taggable t) eqn:T.
    - destruct t; try discriminate. destruct (c_tagging d) as [|tag|tag content|] eqn:G.
      + split.
        * intros H. destruct (py_in P _ data) as [b| |] eqn:B; try discriminate. cbn [bind] in H. destruct b; [|discriminate]. cbn [ensure bind] in H.
          destruct data; try discriminate. cbn [getitem] in H. rewrite py_in_map in B. unfold skey in B. destruct (dget _ _ _) as [x|] eqn:D; [|discriminate].
          injection H as <-. eapply pay_ext; eauto.
        * intros H. inversion H as [? [A|A]|c0 m kvs x A1 A2 A3|c0 tag m kvs y A1 A2 A3 A4|c0 tag co m kvs y x A1 A2 A3 A4 A5]; subst; try discriminate; [now destruct (A c)|].
          rewrite py_in_map, A3. cbn [has_some bind ensure]. now apply getitem_map.
      + split.
        * intros H. destruct (py_in P _ data) as [b| |] eqn:B; try discriminate. cbn [bind] in H. destruct b; [|discriminate]. cbn [ensure bind] in H.
          destruct data; try discriminate. rewrite py_in_map in B. unfold skey in B. destruct (dget _ _ _) as [x|] eqn:D; [|discriminate].
          rewrite (getitem_map P _ _ _ x) in H by exact D. cbn [bind] in H. destruct (eqv P _ x) eqn:Q; [|discriminate]. injection H as <-. eapply pay_int; eauto.
        * intros H. inversion H as [? [A|A]|c0 m kvs x A1 A2 A3|c0 tag0 m kvs y A1 A2 A3 A4|c0 tag0 co m kvs y x A1 A2 A3 A4 A5]; subst; try discriminate; [now destruct (A c)|].
          injection A2 as <-. rewrite py_in_map, A3. cbn [has_some bind ensure]. rewrite (getitem_map _ _ _ _ _ A3). cbn [bind]. now rewrite A4.
      + split.
        * intros H. destruct (py_in P tag data) as [b| |] eqn:B; try discriminate. cbn [bind] in H. destruct b; [|discriminate]. cbn [ensure bind] in H.
          destruct (py_in P content data) as [b| |] eqn:B'; try discriminate. cbn [bind] in H. destruct b; [|discriminate]. cbn [ensure bind] in H.
          destruct data; try discriminate. rewrite py_in_map in B, B'. destruct (skey P l tag) as [x|] eqn:D; [|discriminate]. destruct (skey P l content) as [y|] eqn:D'; [|discriminate].
          rewrite (getitem_map P _ _ _ x) in H by exact D. cbn [bind] in H. destruct (eqv P _ x) eqn:Q; [|discriminate]. cbn [bind ensure] in H.
          rewrite (getitem_map P _ _ _ y) in H by exact D'. injection H as <-. eapply pay_adj; eauto.
        * intros H. inversion H as [? [A|A]|c0 m kvs x A1 A2 A3|c0 tag0 m kvs y A1 A2 A3 A4|c0 tag0 co m kvs y x A1 A2 A3 A4 A5]; subst; try discriminate; [now destruct (A c)|].
          injection A2 as <- <-. rewrite !py_in_map, A3, A5. cbn [has_some bind ensure]. rewrite (getitem_map _ _ _ _ _ A3). cbn [bind]. rewrite A4. cbn [ensure bind]. now apply getitem_map.
      + split; [intros H; injection H as <-; constructor; now right|].
        intros H. inversion H as [? [A|A]|c0 m kvs x A1 A2 A3|c0 tag0 m kvs y A1 A2 A3 A4|c0 tag0 co m kvs y x A1 A2 A3 A4 A5]; subst; try discriminate; reflexivity.
    - split; [intros H; injection H as <-; constructor; left; intros c ->; discriminate|].
      intros H. inversion H; subst; try discriminate. reflexivity.
  Qed.
  Lemma arm_payload_fuel cx t data : x_cls cx = d -> arm_data P cx t data <> NoFuel.
  Proof.
    intros X. unfold arm_data. destruct (taggable t); [|discriminate].
    assert (PI : forall k, py_in P k data <> NoFuel) by (intros; unfold py_in; destruct data; try discriminate; destruct (scal_of P _) as [[]|]; discriminate).
    assert (GI : forall k, getitem P data k <> NoFuel).
    { intros; unfold getitem. destruct data as [| | | | | | |m kvs| | | | |]; try discriminate. destruct (dget _ _ _); [discriminate|]. destruct m; try discriminate.
      unfold factory_value. repeat match goal with |- (if ?x then _ else _) <> _ => destruct x; try discriminate end. }
    assert (B : forall A B (x : res A) (f : A -> res B), x <> NoFuel -> (forall a, f a <> NoFuel) -> bind x f <> NoFuel) by (intros ? ? [] ? ? ?; cbn [bind]; auto; discriminate).
    assert (E : forall b, ensure b <> NoFuel) by (intros []; discriminate).
    destruct (c_tagging (x_cls cx)); repeat (apply B; auto; intros); auto; discriminate.
  Qed.

  Variable l : list pytype.
  Hypothesis CV : Cov P d (TUnion l).

  (** The generated code for a member, run on what the member is deserialized from *)
  Definition variant (n : nat) (t : pytype) (p data : pyval) : res pyval :=
    e <- de_ty P W (union_de_cfg d) union_de_arg t ;;
    eval P W (run P W K n) (de_ctx P d re dn None None None) [("fake_dict", VMap MDict [(VStr "fake_key", p)]); ("data", data)] e.

  (** [fits n t data v]: the member [t] takes the data and makes [v] of it.  Primitive types want the
      data to have the type already; every member wants the result to pass the type check. *)
  Definition fits (n : nat) (t : pytype) (data v : pyval) : Prop :=
    exists p t', payload (c_tagging d) t data p /\ denoted t = Some t' /\
      (is_primitive P t = true \/ t = TNone -> bear P W p t' = true) /\
      variant n t p data = Ok v /\ bear P W v t' = true.
  (** [rejects n t data]: the member is tried to the end and takes the data for no value. *)
  Definition rejects (n : nat) (t : pytype) (data : pyval) : Prop :=
    (forall v, ~ fits n t data v) /\
    (forall p t', payload (c_tagging d) t data p -> denoted t = Some t' ->
       (is_primitive P t = true \/ t = TNone -> bear P W p t' = true) -> variant n t p data <> NoFuel).

  Lemma arm_fits n t e t' data : In t l -> denoted t = Some t' -> de_ty P W (union_de_cfg d) union_de_arg t = Ok e ->
    (forall v, run_arm P W (run P W K n) (de_ctx P d re dn None None None) t e data = Ok v <-> fits n t data v) /\
    ((exists x, run_arm P W (run P W K n) (de_ctx P d re dn None None None) t e data = Raise x) <-> rejects n t data).
  Proof.
    intros I D E. unfold run_arm. cbn [x_g de_ctx].
    assert (R : resolve P (de_globals P d) t = Ok t').
    { apply resolve_denoted; [|exact D]. intros u N S. apply CV; [exact N|]. econstructor; eassumption. }
    rewrite R. cbn [bind].
    set (cx := de_ctx P d re dn None None None).
    destruct (arm_data P cx t data) as [p|x|] eqn:AD.
    2: { assert (NP : forall p, ~ payload (c_tagging d) t data p) by (intros p HP; apply (arm_payload cx t data p eq_refl) in HP; congruence).
         cbn [bind]. split; [intros v; split; [discriminate|intros (p & ? & HP & _); now destruct (NP p)]|].
         split; [intros _|intros _; eauto]. split; [intros v (p & ? & HP & _)|intros p ? HP]; now destruct (NP p). }
    2: { now destruct (arm_payload_fuel cx t data eq_refl). }
    cbn [bind]. pose proof (proj1 (arm_payload cx t data p eq_refl) AD) as PA.
    assert (PU : forall q, payload (c_tagging d) t data q -> q = p) by (intros q HP; apply (arm_payload cx t data q eq_refl) in HP; congruence).
    assert (VE : variant n t p data = eval P W (run P W K n) cx [("fake_dict", VMap MDict [(VStr "fake_key", p)]); ("data", data)] e).
    { unfold variant. rewrite E. reflexivity. }
    rewrite <- VE.
    assert (G : (is_primitive P t || is_none t) = true <-> (is_primitive P t = true \/ t = TNone)).
    { rewrite orb_true_iff. split; (intros [H|H]; [now left|right]); [now destruct t|now subst]. }
    destruct (is_primitive P t || is_none t) eqn:GB.
    - destruct (bear P W p t') eqn:B; cbn [bind].
      + destruct (variant n t p data) as [v|x|] eqn:V; cbn [bind].
        * destruct (bear P W v t') eqn:B2; cbn [ensure bind].
          -- split.
             ++ intros v'. split; [intros H; injection H as <-; exists p, t'; auto|].
                intros (q & t2 & HP & HD & _ & HV & _). apply PU in HP. subst q. congruence.
             ++ split; [intros [x Hx]; discriminate|]. intros [NF _]. exfalso. apply (NF v). exists p, t'. auto.
          -- split.
             ++ intros v'. split; [discriminate|]. intros (q & t2 & HP & HD & _ & HV & HB). apply PU in HP. subst q. congruence.
             ++ split; [intros _|intros _; eauto]. split; [|intros q t2 HP _ _; apply PU in HP; subst q; congruence].
                intros v' (q & t2 & HP & HD & _ & HV & HB). apply PU in HP. subst q. congruence.
        * split.
          -- intros v'. split; [discriminate|]. intros (q & t2 & HP & HD & _ & HV & HB). apply PU in HP. subst q. congruence.
          -- split; [intros _|intros _; eauto]. split; [|intros q t2 HP _ _; apply PU in HP; subst q; congruence].
             intros v' (q & t2 & HP & HD & _ & HV & HB). apply PU in HP. subst q. congruence.
        * split.
          -- intros v'. split; [discriminate|]. intros (q & t2 & HP & HD & _ & HV & HB). apply PU in HP. subst q. congruence.
          -- split; [intros [x Hx]; discriminate|]. intros [_ NF]. exfalso. apply (NF p t'); auto.
      + split.
        * intros v'. split; [discriminate|]. intros (q & t2 & HP & HD & HG & _). apply PU in HP. subst q. assert (t2 = t') by congruence. subst t2.
          rewrite HG in B; [discriminate|now apply G].
        * split; [intros _|intros _; eauto]. split.
          -- intros v' (q & t2 & HP & HD & HG & _). apply PU in HP. subst q. assert (t2 = t') by congruence. subst t2. rewrite HG in B; [discriminate|now apply G].
          -- intros q t2 HP HD HG. apply PU in HP. subst q. assert (t2 = t') by congruence. subst t2. rewrite HG in B; [discriminate|now apply G].
    - assert (NG : ~ (is_primitive P t = true \/ t = TNone)) by (intros X; apply G in X; discriminate).
      cbn [bind]. destruct (variant n t p data) as [v|x|] eqn:V; cbn [bind].
      + destruct (bear P W v t') eqn:B2; cbn [ensure bind].
        * split.
          -- intros v'. split; [intros H; injection H as <-; exists p, t'; repeat split; auto; now intros|].
             intros (q & t2 & HP & HD & _ & HV & _). apply PU in HP. subst q. congruence.
          -- split; [intros [x Hx]; discriminate|]. intros [NF _]. exfalso. apply (NF v). exists p, t'. repeat split; auto; now intros.
        * split.
          -- intros v'. split; [discriminate|]. intros (q & t2 & HP & HD & _ & HV & HB). apply PU in HP. subst q. congruence.
          -- split; [intros _|intros _; eauto]. split; [|intros q t2 HP _ _; apply PU in HP; subst q; congruence].
             intros v' (q & t2 & HP & HD & _ & HV & HB). apply PU in HP. subst q. congruence.
      + split.
        * intros v'. split; [discriminate|]. intros (q & t2 & HP & HD & _ & HV & HB). apply PU in HP. subst q. congruence.
        * split; [intros _|intros _; eauto]. split; [|intros q t2 HP _ _; apply PU in HP; subst q; congruence].
          intros v' (q & t2 & HP & HD & _ & HV & HB). apply PU in HP. subst q. congruence.
      + split.
        * intros v'. split; [discriminate|]. intros (q & t2 & HP & HD & _ & HV & HB). apply PU in HP. subst q. congruence.
        * split; [intros [x Hx]; discriminate|]. intros [_ NF]. exfalso. apply (NF p t'); auto.
  Qed.

  (** The first of several members that takes the data, the ones before it reject it. *)
  Definition first_fit (n : nat) (data v : pyval) : Prop :=
    exists l1 t l2, l = l1 ++ t :: l2 /\ fits n t data v /\ Forall (fun t' => rejects n t' data) l1.

  Definition deserializable_union : Prop :=
    Forall (fun t => denoted t <> None) l /\ exists arms, render_union_de P W d l = Ok arms.

  Lemma arms_shape l0 arms : render_union_de P W d l0 = Ok arms ->
    Forall2 (fun t a => fst a = t /\ de_ty P W (union_de_cfg d) union_de_arg t = Ok (snd a)) l0 arms.
  Proof.
    unfold render_union_de. revert arms. induction l0 as [|t r IH]; intros arms H; cbn [mapM] in H; [injection H as <-; constructor|].
    inv_bind H. inv_bind Hb. destruct (_ && _); [|discriminate]. injection Hb as <-. inv_bind H. injection H as <-. constructor; auto.
  Qed.

  Lemma arms_first n data ll arms : incl ll l -> Forall (fun t => denoted t <> None) ll ->
    Forall2 (fun t a => fst a = t /\ de_ty P W (union_de_cfg d) union_de_arg t = Ok (snd a)) ll arms ->
    (forall v, run_union_de P W (run P W K n) (de_ctx P d re dn None None None) arms data = Ok v <->
       exists l1 t l2, ll = l1 ++ t :: l2 /\ fits n t data v /\ Forall (fun t' => rejects n t' data) l1) /\
    (forall x, run_union_de P W (run P W K n) (de_ctx P d re dn None None None) arms data = Raise x <->
       x = XSerde MUnionDe /\ Forall (fun t => rejects n t data) ll).
  Proof.
    intros IN HD HR. induction HR as [|t [t0 e] r arms [F E] HR IH]; cbn [run_union_de].
    - split; [intros v; split; [discriminate|intros ([] & ? & ? & ? & _); discriminate]|].
      intros x. split; [intros H; injection H as <-; split; [reflexivity|constructor]|intros [-> _]; reflexivity].
    - cbn [fst snd] in F, E. subst t0. inversion HD as [|? ? D1 D2]; subst.
      destruct (denoted t) as [t'|] eqn:D; [|congruence].
      destruct (arm_fits n t e t' data (IN t (or_introl eq_refl)) D E) as [FT RJ].
      specialize (IH (fun x Hx => IN x (or_intror Hx)) D2). destruct IH as [IH1 IH2].
      assert (DJ : forall v, fits n t data v -> rejects n t data -> False) by (intros v A [B _]; now apply (B v)).
      destruct (run_arm P W _ _ t e data) as [v0|x0|] eqn:RA; cbn [catch].
      + assert (F0 : fits n t data v0) by (now apply FT). split.
        * intros v. split; [intros H; injection H as <-; exists [], t, r; auto|].
          intros (l1 & u & l2 & EQ & FU & RU). destruct l1 as [|y l1]; cbn in EQ; injection EQ as -> ->.
          -- apply FT in FU. congruence.
          -- inversion RU; subst. exfalso. eapply DJ; eassumption.
        * intros x. split; [discriminate|]. intros [_ RU]. inversion RU; subst. exfalso. eapply DJ; eassumption.
      + assert (R0 : rejects n t data) by (apply RJ; eauto). split.
        * intros v. rewrite IH1. split.
          -- intros (l1 & u & l2 & -> & FU & RU). exists (t :: l1), u, l2. auto.
          -- intros (l1 & u & l2 & EQ & FU & RU). destruct l1 as [|y l1]; cbn in EQ; injection EQ as -> ->; [exfalso; eapply DJ; eassumption|].
             inversion RU; subst. eauto 6.
        * intros x. rewrite IH2. split; intros [-> H]; (split; [reflexivity|]); [now constructor|now inversion H].
      + assert (N0 : ~ rejects n t data) by (intros X; apply RJ in X as [x X]; discriminate).
        assert (N1 : forall v, ~ fits n t data v) by (intros v X; apply FT in X; discriminate).
        split.
        * intros v. split; [discriminate|]. intros (l1 & u & l2 & EQ & FU & RU). destruct l1 as [|y l1]; cbn in EQ; injection EQ as -> ->; [now destruct (N1 v)|].
          inversion RU; subst. contradiction.
        * intros x. split; [discriminate|]. intros [_ RU]. inversion RU; subst. contradiction.
  Qed.

  Lemma union_first n data : deserializable_union ->
    (forall v, run P W K (S n) (QUnionDe d (union_func_name P "union_de" l) data re dn) = Ok v <-> first_fit n data v) /\
    (forall x, run P W K (S n) (QUnionDe d (union_func_name P "union_de" l) data re dn) = Raise x <->
       x = XSerde MUnionDe /\ Forall (fun t => rejects n t data) l).
  Proof.
    intros [DN [arms HR]]. cbn [run step]. destruct SC as (_ & UN & _). rewrite find_union_ok; [|exact UN|apply CV; constructor].
    cbn [of_option bind]. rewrite HR. cbn [bind]. apply arms_first; [apply incl_refl|exact DN|now apply arms_shape].
  Qed.
End De.

(** * The public functions *)

(** The wrapper class that from_dict and to_dict make up for a union (core.py:156-181) *)
Definition udef (P : program) (tg : tagging) (l : list pytype) : classdef :=
  wrapper P (union_func_name P "Union" l) (TUnion l) tg.

Section Top.
  Variables (P : program) (W : world) (K : list (tagging * pytype)).

  (** A union that is not an Optional, whose wrapper is not one of another order, and in which no two
      types or unions have the same name in generated code. *)
  Definition own_union (tg : tagging) (l : list pytype) : Prop :=
    is_opt (TUnion l) = false /\ fresh K tg (TUnion l) /\ scope_ok P (udef P tg l) /\
    (forall a n, sub_ty (TAlias n a) (TUnion l) -> has_lit a = false).

  Lemma own_cov tg l : own_union tg l -> Cov P (udef P tg l) (TUnion l).
  Proof.
    intros (_ & _ & _ & A). repeat split; intros.
    - eapply iter_types_field; [now left|reflexivity|assumption|assumption].
    - eapply iter_unions_field; [now left|reflexivity|assumption].
    - eapply iter_literals_field; [now left|reflexivity|assumption|exact A].
  Qed.

  Lemma from_union_eq n tg l data nm ro dn : is_opt (TUnion l) = false -> fresh K tg (TUnion l) ->
    run P W K (S n) (QFromObj (tg, TUnion l) data nm ro dn) =
    run P W K n (QUnionDe (udef P tg l) (union_func_name P "union_de" l) data true dn).
  Proof.
    intros O F. cbn [run step unalias]. replace (type_is data (TUnion l)) with false by (destruct data as [| | | | | |[]|[]| | | | |]; reflexivity).
    cbn [is_union]. rewrite O. cbn [negb andb union_args]. now rewrite union_wrapper_fresh.
  Qed.

  Notation fits_ tg l dn := (fits P W K (udef P tg l) true dn).
  Notation rejects_ tg l dn := (rejects P W K (udef P tg l) true dn).

  Definition readable_union (tg : tagging) (l : list pytype) : Prop :=
    Forall (fun t => denoted t <> None) l /\ exists arms, render_union_de P W (udef P tg l) l = Ok arms.

  (** C17: the first member, in the order of the declaration, that takes the data. *)
  Theorem C17_first n tg l data ro dn v : own_union tg l -> readable_union tg l ->
    from_dict P W K (S (S n)) (tg, TUnion l) data ro dn = Ok v <->
    exists l1 t l2, l = l1 ++ t :: l2 /\ fits_ tg l dn n t data v /\ Forall (fun t' => rejects_ tg l dn n t' data) l1.
  Proof.
    intros U R. unfold from_dict. rewrite from_union_eq by apply U.
    apply (union_first P W K (udef P tg l) true dn (proj1 (proj2 (proj2 U))) l (own_cov _ _ U) n data R).
  Qed.
  (** ... and no other exception than SerdeError comes out, exactly when all members were tried. *)
  Theorem C17_none n tg l data ro dn x : own_union tg l -> readable_union tg l ->
    from_dict P W K (S (S n)) (tg, TUnion l) data ro dn = Raise x <->
    x = XSerde MUnionDe /\ Forall (fun t => rejects_ tg l dn n t data) l.
  Proof.
    intros U R. unfold from_dict. rewrite from_union_eq by apply U.
    apply (union_first P W K (udef P tg l) true dn (proj1 (proj2 (proj2 U))) l (own_cov _ _ U) n data R).
  Qed.

  (** ** What the members want, for the simple types *)
  Lemma no_global_de t : p_des P = [] -> find_de P None t = None.
  Proof. intros E. unfold find_de, class_des. now rewrite E. Qed.
  Lemma find_first_de t : first_de P t = None -> find_de P None t = None.
  Proof.
    unfold first_de, find_de, class_des. rewrite app_nil_r. generalize 0. induction (p_des P) as [|s r IH]; intros k H; cbn [find last_index] in *; [reflexivity|].
    destruct (ty_mem t (cd_types s)); [discriminate|]. now apply IH.
  Qed.

  (** A primitive member takes data of its type and returns it unchanged; only a float member lets the
      number hook of the data format convert it. *)
  Theorem C17_prim n tg l dn p data v : first_de P (TPrim p) = None ->
    fits_ tg l dn n (TPrim p) data v <->
    isinst_prim P data p = true /\ isinst_prim P v p = true /\
    match p, dn with PFloat, Some h => h data = Ok v | _, _ => v = data end.
  Proof.
    intros FD. unfold fits.
    assert (V : variant P W K (udef P tg l) true dn n (TPrim p) data data =
      match p, dn with PFloat, Some h => h data | _, _ => Ok data end).
    { unfold variant. rewrite de_ty_eq. cbn [d_class_de union_de_cfg da_deser union_de_arg]. rewrite (find_first_de _ FD).
      destruct p; reflexivity || (destruct dn; reflexivity). }
    split.
    - intros (q & t' & PA & D & G & HV & B). injection D as <-. inversion PA; subst; try discriminate.
      cbn [bear] in *. rewrite V in HV. split; [apply G; now left|]. split; [exact B|]. destruct p, dn; try exact HV; now injection HV.
    - intros (A & B & C). exists data, (TPrim p). split; [constructor; left; discriminate|]. split; [reflexivity|]. split; [intros _; exact A|].
      split; [|exact B]. rewrite V. destruct p, dn; try exact C; now subst.
  Qed.

  Theorem C17_nonetype n tg l dn data v : first_de P TNone = None ->
    fits_ tg l dn n TNone data v <-> data = VNone /\ v = VNone.
  Proof.
    intros FD. unfold fits.
    assert (V : variant P W K (udef P tg l) true dn n TNone data data = Ok VNone).
    { unfold variant. rewrite de_ty_eq. cbn [d_class_de union_de_cfg da_deser union_de_arg]. now rewrite (find_first_de _ FD). }
    split.
    - intros (q & t' & PA & D & G & HV & B). injection D as <-. inversion PA; subst; try discriminate.
      cbn [bear] in *. rewrite V in HV. injection HV as <-. specialize (G (or_intror eq_refl)). destruct q; try discriminate. now split.
    - intros [-> ->]. exists VNone, TNone. split; [constructor; left; discriminate|]. repeat split. exact V.
  Qed.

  (** A dataclass member takes what from_dict of the class takes. *)
  Definition own_class (c : string) : Prop :=
    exists dc, get_class P c = Some dc /\ first_de P (TClass c) = None /\ lit_ok (c_name dc) = true.

  Lemma typename_class c dc : get_class P c = Some dc -> typename P (TClass c) = c_name dc.
  Proof. intros E. cbn [typename]. unfold class_name. now rewrite E. Qed.

  Lemma variant_class tg l n dn c dc p data : own_union tg l -> In (TClass c) l -> get_class P c = Some dc -> first_de P (TClass c) = None ->
    variant P W K (udef P tg l) true dn n (TClass c) p data = run P W K n (QDe dc p true (Some true) dn None None None).
  Proof.
    intros U I G FD. unfold variant. rewrite de_ty_eq. cbn [d_class_de union_de_cfg da_deser union_de_arg]. rewrite (find_first_de _ FD).
    replace (de_rest P W (union_de_cfg (udef P tg l)) union_de_arg (TClass c))
      with (Ok (EDeFn (DtName (TClass c)) (EKey (EVar "fake_dict") "fake_key") true None)) by reflexivity.
    cbn [bind eval x_g de_ctx].
    assert (RS : resolve P (de_globals P (udef P tg l)) (TClass c) = Ok (TClass c)).
    { apply (resolve_denoted P (udef P tg l) (proj1 (proj2 (proj2 U)))); [|reflexivity].
      intros u N S. apply (own_cov tg l U); [exact N|]. econstructor; eassumption. }
    rewrite RS. cbn [bind]. rewrite G. cbn [of_option bind slookup].
    change (String.eqb "fake_dict" "fake_dict") with true. cbn iota. cbn [of_option bind].
    rewrite (getitem_map P _ _ "fake_key" p); [|unfold skey; cbn; reflexivity]. reflexivity.
  Qed.

  Lemma class_via_api n c dc p dn tg' : get_class P c = Some dc -> first_de P (TClass c) = None -> type_is p (TClass c) = false ->
    from_dict P W K (S n) (tg', TClass c) p (Some true) dn =
    catch (run P W K n (QDe dc p true (Some true) dn None None None))
      (fun e => match e with XUser e => Raise e | _ => Raise (XSerde (MWrap e)) end).
  Proof.
    intros G FD TI. unfold from_dict. rewrite (from_obj_eq P W K n tg' (TClass c) dc p true (Some true) dn); [|exists c; auto|exact TI].
    f_equal. apply run_mg. right. repeat eexists; intros ? ?; discriminate.
  Qed.

  Theorem C17_class n tg l dn c data v tg' : own_union tg l -> In (TClass c) l -> own_class c ->
    (forall p, payload P tg (TClass c) data p -> type_is p (TClass c) = false) ->
    fits_ tg l dn n (TClass c) data v <->
    exists p, payload P tg (TClass c) data p /\ from_dict P W K (S n) (tg', TClass c) p (Some true) dn = Ok v /\ named_inst P v (TClass c) = true.
  Proof.
    intros U I (dc & G & FD & _) NI. unfold fits. split.
    - intros (p & t' & PA & D & _ & HV & B). injection D as <-. exists p. split; [exact PA|]. split; [|exact B].
      rewrite (class_via_api n c dc p dn tg' G FD (NI p PA)), <- (variant_class tg l n dn c dc p data U I G FD), HV. reflexivity.
    - intros (p & PA & HV & B). exists p, (TClass c). split; [exact PA|]. split; [reflexivity|]. split; [intros [X|X]; discriminate|]. split; [|exact B].
      rewrite (class_via_api n c dc p dn tg' G FD (NI p PA)) in HV. rewrite (variant_class tg l n dn c dc p data U I G FD).
      destruct (run P W K n _) as [r|e|]; cbn [catch] in HV; [exact HV|destruct e; discriminate|discriminate].
  Qed.
  Theorem C17_class_rejects n tg l dn c data tg' : own_union tg l -> In (TClass c) l -> own_class c ->
    (forall p, payload P tg (TClass c) data p -> type_is p (TClass c) = false) ->
    rejects_ tg l dn n (TClass c) data <->
    forall p, payload P tg (TClass c) data p ->
      from_dict P W K (S n) (tg', TClass c) p (Some true) dn <> NoFuel /\
      forall v, from_dict P W K (S n) (tg', TClass c) p (Some true) dn = Ok v -> named_inst P v (TClass c) = false.
  Proof.
    intros U I OC NI. pose proof OC as (dc & G & FD & _). unfold rejects. split.
    - intros [NF NN] p PA. split.
      + specialize (NN p (TClass c) PA eq_refl ltac:(intros [X|X]; discriminate)). rewrite (variant_class tg l n dn c dc p data U I G FD) in NN.
        rewrite (class_via_api n c dc p dn tg' G FD (NI p PA)). destruct (run P W K n _) as [r|e|]; cbn [catch]; [discriminate|destruct e; discriminate|congruence].
      + intros v HV. apply not_true_iff_false. intros B. apply (NF v). apply (C17_class n tg l dn c data v tg' U I OC NI). eauto.
    - intros H. split.
      + intros v F. apply (C17_class n tg l dn c data v tg' U I OC NI) in F as (p & PA & HV & B). destruct (H p PA) as [_ X]. rewrite (X v HV) in B. discriminate.
      + intros p t' PA D _. destruct (H p PA) as [X _]. rewrite (variant_class tg l n dn c dc p data U I G FD).
        rewrite (class_via_api n c dc p dn tg' G FD (NI p PA)) in X. intros E. rewrite E in X. now apply X.
  Qed.
End Top.

(** ** Tagged unions of dataclasses, deserialization *)
Section Tagged.
  Variables (P : program) (W : world) (K : list (tagging * pytype)).

  Definition cls_union (cs : list string) : pytype := TUnion (map TClass cs).
  (** The classes are known to the program, no global deserializer handles them, and their names are
      pairwise different. *)
  Definition own_classes (cs : list string) : Prop :=
    Forall (own_class P) cs /\ NoDup (map (class_name P) cs).
  Definition not_inst (c : string) (p : pyval) : Prop := forall fs, p <> VObj c fs.

  (** What a union returns that has selected the class [c] and found the data [p] for it. *)
  Definition selected (n : nat) (c : string) (p : pyval) (dn : option numhook) : res pyval :=
    match from_dict P W K (S n) (TagExternal, TClass c) p (Some true) dn with
    | Ok v => if named_inst P v (TClass c) then Ok v else Raise (XSerde MUnionDe)
    | Raise _ => Raise (XSerde MUnionDe)
    | NoFuel => NoFuel
    end.

  Lemma not_inst_type c p : not_inst c p -> type_is p (TClass c) = false.
  Proof.
    intros N. destruct p as [| | | | | |[]|[]|k fs| | | |]; try reflexivity. cbn [type_is]. apply not_true_iff_false. intros E. apply String.eqb_eq in E. subst. now destruct (N fs).
  Qed.
  Lemma payload_fun tg t data p p' : payload P tg t data p -> payload P tg t data p' -> p = p'.
  Proof.
    intros A B. inversion A as [? [A1|A1]|c1 m1 k1 x1 A1 A2 A3|c1 tag1 m1 k1 y1 A1 A2 A3 A4|c1 tag1 co1 m1 k1 y1 x1 A1 A2 A3 A4 A5]; subst;
      inversion B as [? [B1|B1]|c2 m2 k2 x2 B1 B2 B3|c2 tag2 m2 k2 y2 B1 B2 B3 B4|c2 tag2 co2 m2 k2 y2 x2 B1 B2 B3 B4 B5]; subst; try reflexivity; try discriminate; try congruence;
      try (exfalso; eapply A1; reflexivity); try (exfalso; eapply B1; reflexivity).
  Qed.
  Lemma classes_readable tg cs : own_classes cs -> readable_union P W tg (map TClass cs).
  Proof.
    intros [O _]. split.
    - apply Forall_forall. intros t I. apply in_map_iff in I as (c & <- & _). discriminate.
    - unfold render_union_de. generalize (udef P tg (map TClass cs)). intros d. induction O as [|c r (dc & G & FD & LT) _ [arms IH]]; [exists []; reflexivity|].
      cbn [map mapM]. rewrite de_ty_eq. cbn [d_class_de union_de_cfg da_deser union_de_arg]. rewrite (find_first_de _ _ FD).
      change (de_rest P W (union_de_cfg d) union_de_arg (TClass c)) with (Ok (EDeFn (DtName (TClass c)) (EKey (EVar "fake_dict") "fake_key") true None)).
      cbn [bind arm_lits_ok andb]. rewrite (typename_class P c dc G), LT. cbn [bind]. rewrite IH. eexists. reflexivity.
  Qed.
  Lemma classes_nodup cs : own_classes cs -> NoDup cs.
  Proof. intros [_ N]. eapply NoDup_map_inv. exact N. Qed.
  Lemma classes_inj cs c c' : own_classes cs -> In c cs -> In c' cs -> class_name P c = class_name P c' -> c = c'.
  Proof.
    intros [_ N] I I' E. induction cs as [|x r IH]; [contradiction|]. cbn [map] in N. inversion N as [|? ? N1 N2]; subst.
    destruct I as [->|I], I' as [->|I']; auto.
    - exfalso. apply N1. rewrite E. now apply in_map.
    - exfalso. apply N1. rewrite <- E. now apply in_map.
  Qed.

  Lemma select n tg cs data c p ro dn : own_union P K tg (map TClass cs) -> own_classes cs -> In c cs ->
    payload P tg (TClass c) data p -> not_inst c p ->
    (forall c' p', In c' cs -> payload P tg (TClass c') data p' -> c' = c) ->
    from_dict P W K (S (S n)) (tg, cls_union cs) data ro dn = selected n c p dn.
  Proof.
    intros U O I PA NI UQ. unfold cls_union.
    pose proof (classes_readable tg cs O) as R. pose proof (classes_nodup cs O) as ND.
    assert (OC : forall c', In c' cs -> own_class P c') by (apply Forall_forall, O).
    assert (RJ : forall c', In c' cs -> c' <> c -> rejects P W K (udef P tg (map TClass cs)) true dn n (TClass c') data).
    { intros c' I' NE. split; [intros v (p' & t' & PA' & _)|intros p' t' PA']; now destruct (NE (UQ c' p' I' PA')). }
    assert (NT : forall p', payload P tg (TClass c) data p' -> type_is p' (TClass c) = false) by (intros p' X; rewrite (payload_fun _ _ _ _ _ X PA); now apply not_inst_type).
    pose proof (fun v => C17_first P W K n tg (map TClass cs) data ro dn v U R) as F.
    pose proof (fun x => C17_none P W K n tg (map TClass cs) data ro dn x U R) as N.
    pose proof (fun v => C17_class P W K n tg (map TClass cs) dn c data v TagExternal U (in_map TClass _ _ I) (OC c I) NT) as CF.
    pose proof (C17_class_rejects P W K n tg (map TClass cs) dn c data TagExternal U (in_map TClass _ _ I) (OC c I) NT) as CR.
    assert (NONE : rejects P W K (udef P tg (map TClass cs)) true dn n (TClass c) data ->
      from_dict P W K (S (S n)) (tg, TUnion (map TClass cs)) data ro dn = Raise (XSerde MUnionDe)).
    { intros X. apply N. split; [reflexivity|]. apply Forall_forall. intros t It. apply in_map_iff in It as (c' & <- & I').
      destruct (string_dec c' c) as [->|NE]; auto. }
    unfold selected. destruct (from_dict P W K (S n) _ p _ _) as [v|e|] eqn:E.
    - destruct (named_inst P v (TClass c)) eqn:B.
      + apply F. apply in_split in I as (cs1 & cs2 & ->). exists (map TClass cs1), (TClass c), (map TClass cs2). split; [apply map_app|].
        split; [apply CF; eauto|]. apply Forall_forall. intros t It. apply in_map_iff in It as (c' & <- & I'). apply RJ; [apply in_or_app; now left|].
        intros ->. apply NoDup_remove_2 in ND. apply ND. apply in_or_app. now left.
      + apply NONE, CR. intros p' PA'. rewrite (payload_fun _ _ _ _ _ PA' PA), E. split; [discriminate|]. intros v' X. now injection X as <-.
    - apply NONE, CR. intros p' PA'. rewrite (payload_fun _ _ _ _ _ PA' PA), E. split; discriminate.
    - destruct (from_dict P W K (S (S n)) _ _ _ _) as [v|x|] eqn:E'; [| |reflexivity].
      + exfalso. pose proof (proj1 (F v) eq_refl) as (l1 & t & l2 & EQ & FT & _).
        assert (It : In t (map TClass cs)) by (rewrite EQ; apply in_or_app; right; now left). apply in_map_iff in It as (c' & <- & I').
        pose proof FT as (p' & t' & PA' & _). pose proof (UQ c' p' I' PA'). subst c'. apply CF in FT as (p2 & PA2 & HV & _).
        rewrite (payload_fun _ _ _ _ _ PA2 PA), E in HV. discriminate.
      + exfalso. pose proof (proj1 (N x) eq_refl) as [_ AR]. rewrite Forall_forall in AR. specialize (AR _ (in_map TClass _ _ I)).
        destruct (proj1 CR AR p PA) as [X _]. contradiction.
  Qed.

  Lemma reject_all n tg cs data ro dn : own_union P K tg (map TClass cs) -> own_classes cs ->
    (forall c p, In c cs -> ~ payload P tg (TClass c) data p) ->
    from_dict P W K (S (S n)) (tg, cls_union cs) data ro dn = Raise (XSerde MUnionDe).
  Proof.
    intros U O NP. apply (C17_none P W K n tg (map TClass cs) data ro dn _ U (classes_readable tg cs O)). split; [reflexivity|].
    apply Forall_forall. intros t It. apply in_map_iff in It as (c & <- & I). split; [intros v (p & t' & PA & _)|intros p t' PA]; now destruct (NP c p I).
  Qed.

  Lemma name_of c : own_class P c -> typename P (TClass c) = class_name P c. Proof. reflexivity. Qed.

  (** C14: the one key of the mapping selects the class with this name. *)
  Theorem C14_from n cs c m x ro dn : own_union P K TagExternal (map TClass cs) -> own_classes cs -> In c cs -> not_inst c x ->
    from_dict P W K (S (S n)) (TagExternal, cls_union cs) (VMap m [(VStr (class_name P c), x)]) ro dn = selected n c x dn.
  Proof.
    intros U O I NI. apply select; auto.
    - eapply pay_ext; try reflexivity. unfold skey. cbn [dget]. change (typename P (TClass c)) with (class_name P c).
      change (py_eqb (enum_scalar P) (VStr (class_name P c)) (VStr (class_name P c))) with (eqv P (VStr (class_name P c)) (VStr (class_name P c))).
      now rewrite eqv_str, String.eqb_refl.
    - intros c' p' I' PA. inversion PA as [? [A|A]|c1 m1 k1 x1 A1 A2 A3|c1 tag1 m1 k1 y1 A1 A2 A3 A4|c1 tag1 co1 m1 k1 y1 x1 A1 A2 A3 A4 A5]; subst; try discriminate; [now destruct (A c')|].
      apply (classes_inj cs); auto. unfold skey in A3. cbn [dget] in A3. change (typename P (TClass c')) with (class_name P c') in A3.
      change (py_eqb (enum_scalar P)) with (eqv P) in A3. rewrite eqv_str in A3. destruct (String.eqb _ _) eqn:Q; [|discriminate]. apply String.eqb_eq in Q. congruence.
  Qed.
  Theorem C14_unknown n cs m k x ro dn : own_union P K TagExternal (map TClass cs) -> own_classes cs -> ~ In k (map (class_name P) cs) ->
    from_dict P W K (S (S n)) (TagExternal, cls_union cs) (VMap m [(VStr k, x)]) ro dn = Raise (XSerde MUnionDe).
  Proof.
    intros U O NK. apply reject_all; auto. intros c p I PA.
    inversion PA as [? [A|A]|c1 m1 k1 x1 A1 A2 A3|c1 tag1 m1 k1 y1 A1 A2 A3 A4|c1 tag1 co1 m1 k1 y1 x1 A1 A2 A3 A4 A5]; subst; try discriminate; [now destruct (A c)|].
    apply NK. unfold skey in A3. cbn [dget] in A3. change (typename P (TClass c)) with (class_name P c) in A3.
    change (py_eqb (enum_scalar P)) with (eqv P) in A3. rewrite eqv_str in A3. destruct (String.eqb _ _) eqn:Q; [|discriminate]. apply String.eqb_eq in Q.
    rewrite in_map_iff. exists c. split; [congruence|assumption].
  Qed.

  (** C15: the entry of the tag selects the class, which then reads the whole mapping. *)
  Theorem C15_from n tag cs c m kvs ro dn : own_union P K (TagInternal tag) (map TClass cs) -> own_classes cs -> In c cs ->
    skey P kvs tag = Some (VStr (class_name P c)) ->
    from_dict P W K (S (S n)) (TagInternal tag, cls_union cs) (VMap m kvs) ro dn = selected n c (VMap m kvs) dn.
  Proof.
    intros U O I T. apply select; auto; [| |].
    - eapply pay_int; try reflexivity; [exact T|]. change (typename P (TClass c)) with (class_name P c). now rewrite eqv_str, String.eqb_refl.
    - intros fs. discriminate.
    - intros c' p' I' PA. inversion PA as [? [A|A]|c1 m1 k1 x1 A1 A2 A3|c1 tag1 m1 k1 y1 A1 A2 A3 A4|c1 tag1 co1 m1 k1 y1 x1 A1 A2 A3 A4 A5]; subst; try discriminate; [now destruct (A c')|].
      injection A2 as <-. rewrite T in A3. injection A3 as <-. apply (classes_inj cs); auto. change (typename P (TClass c')) with (class_name P c') in A4.
      rewrite eqv_str in A4. now apply String.eqb_eq.
  Qed.
  Theorem C15_unknown n tag cs m kvs ro dn : own_union P K (TagInternal tag) (map TClass cs) -> own_classes cs ->
    (forall c y, In c cs -> skey P kvs tag = Some y -> eqv P (VStr (class_name P c)) y = false) ->
    from_dict P W K (S (S n)) (TagInternal tag, cls_union cs) (VMap m kvs) ro dn = Raise (XSerde MUnionDe).
  Proof.
    intros U O NK. apply reject_all; auto. intros c p I PA.
    inversion PA as [? [A|A]|c1 m1 k1 x1 A1 A2 A3|c1 tag1 m1 k1 y1 A1 A2 A3 A4|c1 tag1 co1 m1 k1 y1 x1 A1 A2 A3 A4 A5]; subst; try discriminate; [now destruct (A c)|].
    injection A2 as <-. change (typename P (TClass c)) with (class_name P c) in A4. rewrite (NK c y1 I A3) in A4. discriminate.
  Qed.

  (** C16: the entry of the tag selects the class, which reads the entry of the content only. *)
  Theorem C16_from n tag content cs c m kvs x ro dn : own_union P K (TagAdjacent tag content) (map TClass cs) -> own_classes cs -> In c cs -> not_inst c x ->
    skey P kvs tag = Some (VStr (class_name P c)) -> skey P kvs content = Some x ->
    from_dict P W K (S (S n)) (TagAdjacent tag content, cls_union cs) (VMap m kvs) ro dn = selected n c x dn.
  Proof.
    intros U O I NI T X. apply select; auto.
    - eapply pay_adj; try reflexivity; [exact T| |exact X]. change (typename P (TClass c)) with (class_name P c). now rewrite eqv_str, String.eqb_refl.
    - intros c' p' I' PA. inversion PA as [? [A|A]|c1 m1 k1 x1 A1 A2 A3|c1 tag1 m1 k1 y1 A1 A2 A3 A4|c1 tag1 co1 m1 k1 y1 x1 A1 A2 A3 A4 A5]; subst; try discriminate; [now destruct (A c')|].
      injection A2 as <- <-. rewrite T in A3. injection A3 as <-. apply (classes_inj cs); auto. change (typename P (TClass c')) with (class_name P c') in A4.
      rewrite eqv_str in A4. now apply String.eqb_eq.
  Qed.
  Theorem C16_unknown n tag content cs m kvs ro dn : own_union P K (TagAdjacent tag content) (map TClass cs) -> own_classes cs ->
    skey P kvs content = None \/ (forall c y, In c cs -> skey P kvs tag = Some y -> eqv P (VStr (class_name P c)) y = false) ->
    from_dict P W K (S (S n)) (TagAdjacent tag content, cls_union cs) (VMap m kvs) ro dn = Raise (XSerde MUnionDe).
  Proof.
    intros U O NK. apply reject_all; auto. intros c p I PA.
    inversion PA as [? [A|A]|c1 m1 k1 x1 A1 A2 A3|c1 tag1 m1 k1 y1 A1 A2 A3 A4|c1 tag1 co1 m1 k1 y1 x1 A1 A2 A3 A4 A5]; subst; try discriminate; [now destruct (A c)|].
    injection A2 as <- <-. destruct NK as [NK|NK]; [congruence|]. change (typename P (TClass c)) with (class_name P c) in A4. rewrite (NK c y1 I A3) in A4. discriminate.
  Qed.
End Tagged.

(** * Serialization *)
Section Se.
  Variables (P : program) (W : world) (K : list (tagging * pytype)).

  (** Types whose membership isinstance decides *)
  Definition simple (t : pytype) : bool :=
    match t with
    | TPrim _ | TNewType _ _ | TPrimSub _ _ | TNone | TClass _ | TEnum _ | TStr _ | TDate _ => true
    | _ => false
    end.
  (** The object [v] is an instance of the type [t].  An object belongs to its own class and to the classes
      that one derives from: bool derives from int, a subclass of a primitive and the members of an enum that
      mixes in a primitive from the primitive. *)
  Inductive instance_of : pyval -> pytype -> Prop :=
  | io_bool b : instance_of (VBool b) (TPrim PBool)
  | io_bool_int b : instance_of (VBool b) (TPrim PInt)
  | io_int z : instance_of (VInt z) (TPrim PInt)
  | io_float f : instance_of (VFloat f) (TPrim PFloat)
  | io_str s : instance_of (VStr s) (TPrim PStr)
  | io_derived c v p : instance_of v (TPrim p) -> instance_of (VSub c v) (TPrim p)
  | io_mixin c d m p : get_enum P c = Some d -> e_mixin d = Some p -> instance_of (VEnum c m) (TPrim p)
  | io_mixin_bool c d m : get_enum P c = Some d -> e_mixin d = Some PBool -> instance_of (VEnum c m) (TPrim PInt)
  | io_newtype n p v : instance_of v (TPrim p) -> instance_of v (TNewType n p)
  | io_none : instance_of VNone TNone
  | io_class c fs : instance_of (VObj c fs) (TClass c)
  | io_base c d b fs : get_class P c = Some d -> In b (c_mro d) -> instance_of (VObj c fs) (TClass b)
  | io_enum c m : instance_of (VEnum c m) (TEnum c)
  | io_sub c b p v : c = b \/ p_sub P c b = true -> instance_of (VSub c v) (TPrimSub b p)
  | io_text c b s : c = b \/ p_sub P c b = true -> instance_of (VInst c s) (TStr b)
  | io_date c b s : c = b \/ p_sub P c b = true -> instance_of (VDate c s) (TDate b).

  (** isinstance(v, t) *)
  Definition isa (v : pyval) (t : pytype) : bool :=
    match t with
    | TPrim p | TNewType _ p => isinst_prim P v p
    | TNone => match v with VNone => true | _ => false end
    | _ => named_inst P v t
    end.

  Lemma prim_instance v p : isinst_prim P v p = true <-> instance_of v (TPrim p).
  Proof.
    unfold isinst_prim. split.
    - induction v; cbn [prim_class]; try discriminate; intros E.
      + destruct p; try discriminate E; constructor.
      + destruct p; try discriminate E; constructor.
      + destruct p; try discriminate E; constructor.
      + destruct p; try discriminate E; constructor.
      + apply io_derived. auto.
      + unfold prim_of_mixin in E. destruct (get_enum P c) as [d|] eqn:G; [|discriminate]. destruct (e_mixin d) as [q|] eqn:M; [|discriminate].
        destruct q, p; try discriminate E; try (eapply io_mixin; eassumption). eapply io_mixin_bool; eassumption.
    - intros I. remember (TPrim p) as t eqn:T. revert p T.
      induction I; intros q T; try discriminate T; injection T as <-; cbn [prim_class]; try reflexivity; auto.
      + unfold prim_of_mixin. rewrite H, H0. now destruct p.
      + unfold prim_of_mixin. rewrite H, H0. reflexivity.
  Qed.
  Lemma sub_instance a b : issub P a b = true <-> a = b \/ p_sub P a b = true.
  Proof. unfold issub. rewrite orb_true_iff, String.eqb_eq. tauto. Qed.
  Lemma isa_instance v t : simple t = true -> isa v t = true <-> instance_of v t.
  Proof.
    intros S. destruct t; try discriminate S; cbn [isa].
    - apply prim_instance.
    - destruct v; cbn [named_inst]; try (split; [discriminate|intros I; inversion I]). rewrite sub_instance. split; [apply io_sub|intros I; now inversion I].
    - rewrite prim_instance. split; [apply io_newtype|intros I; now inversion I].
    - destruct v; split; try discriminate; try (intros I; inversion I; fail); constructor.
    - destruct v; cbn [named_inst]; try (split; [discriminate|intros I; inversion I]). rewrite String.eqb_eq. split; [intros ->; constructor|intros I; now inversion I].
    - destruct v as [| | | | | | | |c' fs| | | |]; cbn [named_inst]; try (split; [discriminate|intros I; inversion I]). unfold obj_isa. rewrite orb_true_iff, String.eqb_eq. split.
      + intros [-> | E]; [constructor|]. destruct (get_class P c') as [d|] eqn:G; [|discriminate]. apply smem_In in E. eapply io_base; eassumption.
      + intros I. inversion I; subst; [now left|]. right. match goal with G : get_class P c' = _ |- _ => rewrite G end. now apply smem_In.
    - destruct v; cbn [named_inst]; try (split; [discriminate|intros I; inversion I]). rewrite sub_instance. split; [apply io_text|intros I; now inversion I].
    - destruct v; cbn [named_inst]; try (split; [discriminate|intros I; inversion I]). rewrite sub_instance. split; [apply io_date|intros I; now inversion I].
  Qed.
  Lemma not_isa v t : simple t = true -> ~ instance_of v t -> isa v t = false.
  Proof. intros S N. destruct (isa v t) eqn:E; [|reflexivity]. now apply isa_instance in E. Qed.
  Lemma not_isas v l : Forall (fun t => simple t = true) l -> Forall (fun t => ~ instance_of v t) l -> Forall (fun t => isa v t = false) l.
  Proof. intros S. induction S; intros N; inversion N; subst; constructor; auto using not_isa. Qed.

  (** The form of a dataclass member, given the serialized fields *)
  Definition tagged (tg : tagging) (name : string) (v : pyval) : res pyval :=
    match tg with
    | TagExternal => Ok (VMap MDict [(VStr name, v)])
    | TagInternal tag =>
      match v with
      | VMap k kvs => Ok (VMap k (dset (enum_scalar P) kvs (VStr tag) (VStr name)))
      | _ => Raise (XSerde (MWrap XType))
      end
    | TagAdjacent tag content => Ok (VMap MDict (dset (enum_scalar P) [(VStr content, v)] (VStr tag) (VStr name)))
    | Untagged => Ok v
    end.
  (** The form of an object as the member [t] of a union *)
  Definition member_form (n : nat) (tg : tagging) (t : pytype) (o : pyval) : res pyval :=
    match t with
    | TNone => Ok VNone
    | TEnum c => match enum_value P c o with Raise e => Raise (XSerde (MWrap e)) | r => r end
    | TStr _ => Ok (VStr (py_str P W o))
    | TDate _ => match o with VDate _ s => Ok (VStr s) | _ => Raise (XSerde (MWrap XAttr)) end
    | TClass c =>
      v <- to_dict P W K (S n) o None (Some false) (Some false) false ;; tagged tg (class_name P c) v
    | _ => Ok o
    end.

  Definition writable (l : list pytype) : Prop :=
    Forall (fun t => simple t = true /\ find_ser P None t = None /\ lit_ok (typename P t) = true) l.

  Lemma instance_isa v t : simple t = true -> is_instance P W v t = isa v t.
  Proof. destruct t; intros S; try discriminate; reflexivity. Qed.

  Definition se_simple (t : pytype) : expr :=
    match t with
    | TClass _ => ESeFn obj_var true
    | TEnum _ => EEnumVal t obj_var
    | TStr _ => EIf EReuse obj_var (EStr obj_var)
    | TDate _ => EIf EReuse obj_var (EIso obj_var)
    | TNone => ENone
    | _ => obj_var
    end.
  Lemma se_arms d l : writable l -> render_union_se P d l = Ok (map (fun t => (t, se_simple t)) l).
  Proof.
    intros H. unfold render_union_se. induction H as [|t r (S & F & L) _ IH]; [reflexivity|]. cbn [mapM map].
    assert (E : se_ty P (union_se_cfg d) false obj_var t = Ok (se_simple t)).
    { destruct t; try discriminate S; cbn [se_ty r_class_ser union_se_cfg]; rewrite F; try reflexivity. cbn iota. unfold se_class. cbn [r_class_ser union_se_cfg]. rewrite F. reflexivity. }
    assert (LT : lit (typename P t) = Ok (typename P t)) by (unfold lit; now rewrite L).
    rewrite E. cbn [bind]. rewrite LT. cbn [bind]. rewrite IH. reflexivity.
  Qed.
  Lemma udef_fns tg l : se_fns P (class_fuel P) (udef P tg l) = Ok [].
  Proof. unfold class_fuel. reflexivity. Qed.

  Lemma to_union_eq n tg l o nm ro cv sk : own_union P K tg l ->
    run P W K (S n) (QToObj o nm ro cv sk (Some (tg, TUnion l))) =
    catch (run P W K n (QUnionSe (udef P tg l) (union_func_name P "union_se" l) o false false false)) (fun e => Raise (XSerde (MWrap e))).
  Proof.
    intros (O & F & _). cbn [run step]. f_equal. unfold to_obj_body. cbn [option_map fst snd unalias]. rewrite O. now rewrite union_wrapper_fresh.
  Qed.
  Lemma union_se_run n tg l o : own_union P K tg l -> writable l ->
    run P W K (S n) (QUnionSe (udef P tg l) (union_func_name P "union_se" l) o false false false) =
    run_union_se P W (run P W K n) (se_ctx P (udef P tg l) [] false false false) (map (fun t => (t, se_simple t)) l) o.
  Proof.
    intros U WR. cbn [run step]. rewrite find_union_ok; [|apply U|apply (own_cov P K tg l U); constructor].
    cbn [of_option bind]. rewrite (se_arms _ l WR). cbn [bind]. rewrite udef_fns. reflexivity.
  Qed.

  Lemma skip_arms n tg l o l1 r : Forall (fun t => simple t = true) l1 -> Forall (fun t => isa o t = false) l1 ->
    run_union_se P W (run P W K n) (se_ctx P (udef P tg l) [] false false false) (map (fun t => (t, se_simple t)) (l1 ++ r)) o =
    run_union_se P W (run P W K n) (se_ctx P (udef P tg l) [] false false false) (map (fun t => (t, se_simple t)) r) o.
  Proof.
    intros S H. induction H as [|t l1 E _ IH]; [reflexivity|]. inversion S as [|? ? S1 S2]; subst. cbn [app map run_union_se].
    rewrite (instance_isa o t S1), E. auto.
  Qed.

  (** C18: an object that is an instance of no member is rejected. *)
  Theorem C18_foreign_partial n tg l o ro cv sk : own_union P K tg l -> writable l -> Forall (fun t => ~ instance_of o t) l ->
    to_dict P W K (S (S n)) o (Some (tg, TUnion l)) ro cv sk = Raise (XSerde (MWrap (XSerde MUnionSe))).
  Proof.
    intros U WR H. unfold to_dict. rewrite (to_union_eq (S n) tg l o true ro cv sk U), (union_se_run n tg l o U WR).
    assert (SI : Forall (fun t => simple t = true) l) by (eapply Forall_impl; [|exact WR]; cbn beta; tauto).
    rewrite <- (app_nil_r l) at 2. rewrite (skip_arms n tg l o l [] SI (not_isas o l SI H)). reflexivity.
  Qed.

  (** C18, C14-C16: the first member of which the object is an instance determines the form. *)
  Theorem C18_first_partial n tg l o ro cv sk l1 t l2 : own_union P K tg l -> writable l -> l = l1 ++ t :: l2 ->
    Forall (fun t' => ~ instance_of o t') l1 -> instance_of o t -> first_ser P o = None ->
    to_dict P W K (S (S n)) o (Some (tg, TUnion l)) ro cv sk = member_form n tg t o.
  Proof.
    intros U WR EQ H HI FS. unfold to_dict. rewrite (to_union_eq (S n) tg l o true ro cv sk U), (union_se_run n tg l o U WR).
    assert (SI : Forall (fun t => simple t = true) l) by (eapply Forall_impl; [|exact WR]; cbn beta; tauto).
    assert (S1 : Forall (fun t => simple t = true) l1 /\ simple t = true).
    { rewrite EQ in SI. apply Forall_app in SI as [A B]. split; [exact A|now inversion B]. }
    destruct S1 as [S1 St]. apply (isa_instance o t St) in HI.
    replace (map (fun t => (t, se_simple t)) l) with (map (fun t => (t, se_simple t)) (l1 ++ t :: l2)) by now rewrite EQ.
    rewrite (skip_arms n tg l o l1 (t :: l2) S1 (not_isas o l1 S1 H)). cbn [map run_union_se]. rewrite (instance_isa o t St), HI.
    assert (It : In t l) by (rewrite EQ; apply in_or_app; right; now left).
    destruct t; try discriminate St; cbn [se_simple eval obj_var slookup taggable]; change (String.eqb "obj" "obj") with true; cbn iota; cbn [of_option bind catch member_form]; try reflexivity.
    - (* enum *) assert (RS : resolve P (se_globals P (udef P tg l)) (TEnum c) = Ok (TEnum c)).
      { destruct (own_cov P K tg l U) as [C _]. apply se_lookup; [apply U|reflexivity|reflexivity|]. apply C; [reflexivity|]. econstructor; [exact It|constructor]. }
      cbn [x_g se_ctx]. rewrite RS. cbn [bind]. destruct (enum_value P c o); reflexivity.
    - (* class *) destruct o as [| | | | | | | |k fs| | | |]; try discriminate HI.
      unfold to_dict. cbn [run step]. unfold to_obj_body. cbn [option_map]. rewrite FS.
      change (typename P (TClass c)) with (class_name P c). cbn [x_cls se_ctx c_tagging udef wrapper x_reuse x_conv x_skip].
      destruct (get_class P k) as [dk|]; cbn [of_option bind]; [|reflexivity].
      destruct (run P W K n _) as [v|e|]; cbn [bind catch]; [|reflexivity|reflexivity].
      destruct tg; cbn [tagged]; try reflexivity. destruct v; reflexivity.
    - (* date *) destruct o; reflexivity.
  Qed.

  Lemma member_class n tg c o v : to_dict P W K (S n) o None (Some false) (Some false) false = Ok v ->
    member_form n tg (TClass c) o = tagged tg (class_name P c) v.
  Proof. intros E. cbn [member_form]. now rewrite E. Qed.

  (** C14: external tagging gives one entry, from the name to the fields. *)
  Theorem C14_to n l l1 c l2 o v ro cv sk : own_union P K TagExternal l -> writable l -> l = l1 ++ TClass c :: l2 ->
    Forall (fun t' => ~ instance_of o t') l1 -> instance_of o (TClass c) -> first_ser P o = None ->
    to_dict P W K (S n) o None (Some false) (Some false) false = Ok v ->
    to_dict P W K (S (S n)) o (Some (TagExternal, TUnion l)) ro cv sk = Ok (VMap MDict [(VStr (class_name P c), v)]).
  Proof. intros U WR EQ H HI FS E. rewrite (C18_first_partial n _ l o ro cv sk l1 _ l2 U WR EQ H HI FS). now rewrite (member_class n _ c o v E). Qed.

  (** C15: internal tagging sets one entry of the fields and leaves the others. *)
  Theorem C15_to n tag l l1 c l2 o m kvs ro cv sk : own_union P K (TagInternal tag) l -> writable l -> l = l1 ++ TClass c :: l2 ->
    Forall (fun t' => ~ instance_of o t') l1 -> instance_of o (TClass c) -> first_ser P o = None ->
    to_dict P W K (S n) o None (Some false) (Some false) false = Ok (VMap m kvs) ->
    exists kvs', to_dict P W K (S (S n)) o (Some (TagInternal tag, TUnion l)) ro cv sk = Ok (VMap m kvs') /\
      skey P kvs' tag = Some (VStr (class_name P c)) /\
      (forall k, k <> tag -> skey P kvs' k = skey P kvs k) /\
      (skey P kvs tag = None -> kvs' = kvs ++ [(VStr tag, VStr (class_name P c))]).
  Proof.
    intros U WR EQ H HI FS E. rewrite (C18_first_partial n _ l o ro cv sk l1 _ l2 U WR EQ H HI FS). rewrite (member_class n _ c o _ E).
    cbn [tagged]. eexists. split; [reflexivity|]. unfold skey. split; [now rewrite dget_dset_str, String.eqb_refl|]. split.
    - intros k N. rewrite dget_dset_str. destruct (String.eqb_spec tag k); [congruence|reflexivity].
    - intros X. now apply dset_fresh.
  Qed.

  (** C16: adjacent tagging gives two entries, the fields and the name. *)
  Theorem C16_to n tag content l l1 c l2 o v ro cv sk : own_union P K (TagAdjacent tag content) l -> writable l -> l = l1 ++ TClass c :: l2 ->
    Forall (fun t' => ~ instance_of o t') l1 -> instance_of o (TClass c) -> first_ser P o = None -> tag <> content ->
    to_dict P W K (S n) o None (Some false) (Some false) false = Ok v ->
    to_dict P W K (S (S n)) o (Some (TagAdjacent tag content, TUnion l)) ro cv sk =
      Ok (VMap MDict [(VStr content, v); (VStr tag, VStr (class_name P c))]).
  Proof.
    intros U WR EQ H HI FS N E. rewrite (C18_first_partial n _ l o ro cv sk l1 _ l2 U WR EQ H HI FS). rewrite (member_class n _ c o v E).
    cbn [tagged]. rewrite dset_fresh; [reflexivity|]. cbn [dget]. change (py_eqb (enum_scalar P)) with (eqv P). rewrite eqv_str.
    destruct (String.eqb_spec content tag); [congruence|reflexivity].
  Qed.
End Se.

Lemma foreignb_ok P o l : forallb (fun t => simple t && negb (isa P o t)) l = true -> Forall (fun t => ~ instance_of P o t) l.
Proof.
  rewrite forallb_forall, Forall_forall. intros H t I. specialize (H t I). apply andb_prop in H as [S N]. rewrite <- (isa_instance P o t S).
  apply negb_true_iff in N. congruence.
Qed.

(** A check for [own_union] on concrete unions *)
Definition own_unionb (P : program) (tg : tagging) (l : list pytype) : bool :=
  let d := udef P tg l in
  let L := closure P 4 (TClass (c_id d) :: subs (TUnion l)) in
  negb (is_opt (TUnion l)) && closedb P d L && names_okb P L && unions_okb P L && literals_okb P L &&
  forallb (fun t => match t with TAlias _ a => negb (has_lit a) | _ => true end) (subs (TUnion l)).
Lemma own_unionb_ok P tg l : own_unionb P tg l = true -> own_union P [] tg l.
Proof.
  unfold own_unionb. cbv zeta. intros H. repeat (apply andb_prop in H as [H ?]). rewrite negb_true_iff in H.
  split; [exact H|]. split; [apply fresh_nil|]. split.
  - split; [eapply names_okb_ok; eassumption|]. split; [eapply unions_okb_ok; eassumption|eapply literals_okb_ok; eassumption].
  - intros a n S. apply subs_sound in S. rewrite forallb_forall in H0. specialize (H0 _ S). now apply negb_true_iff.
Qed.

Module UnionEx.
  Definition P := prog [cls "A" [fld "x" TInt]; cls "B" [fld "x" TInt; fld "y" TString]] [mkEnum "E" "E" None [("one", VInt 1)]].
  Definition cs := ["A"; "B"].
  Definition a1 := VObj "A" [("x", VInt 1)].
  Definition b1 := VObj "B" [("x", VInt 2); ("y", VStr "q")].

  Lemma classes : own_classes P cs.
  Proof. split; [repeat constructor; eexists; repeat split; reflexivity|]. apply (nodupb_ok string_dec). vm_compute. reflexivity. Qed.

  Example C14_ex : from_dict P W0 [] 10 (TagExternal, cls_union cs) (dict [("B", dict [("x", VInt 2); ("y", VStr "q")])]) None None = Ok b1.
  Proof.
    change (dict [("B", ?x)]) with (VMap MDict [(VStr (class_name P "B"), x)]).
    rewrite (C14_from P W0 [] 8 cs "B"); [vm_compute; reflexivity|apply own_unionb_ok; vm_compute; reflexivity|exact classes|cbn; auto|discriminate].
  Qed.
  Example C14_unknown_ex : from_dict P W0 [] 10 (TagExternal, cls_union cs) (dict [("C", dict [("x", VInt 2)])]) None None = Raise (XSerde MUnionDe).
  Proof. apply (C14_unknown P W0 [] 8 cs); [apply own_unionb_ok; vm_compute; reflexivity|exact classes|]. cbn. intros [X|[X|[]]]; discriminate. Qed.
  Example C14_to_ex : to_dict P W0 [] 10 b1 (Some (TagExternal, cls_union cs)) None None false = Ok (dict [("B", dict [("x", VInt 2); ("y", VStr "q")])]).
  Proof.
    apply (C14_to P W0 [] 8 [TClass "A"; TClass "B"] [TClass "A"] "B" []); try reflexivity; [apply own_unionb_ok; vm_compute; reflexivity|repeat constructor|apply foreignb_ok; reflexivity|constructor].
  Qed.
  Example C15_ex : from_dict P W0 [] 10 (TagInternal "type", cls_union cs) (dict [("x", VInt 2); ("type", VStr "A"); ("y", VStr "q")]) None None = Ok (VObj "A" [("x", VInt 2)]).
  Proof.
    unfold dict at 1. rewrite (C15_from P W0 [] 8 "type" cs "A"); [vm_compute; reflexivity|apply own_unionb_ok; vm_compute; reflexivity|exact classes|cbn; auto|vm_compute; reflexivity].
  Qed.
  Example C15_unknown_ex : from_dict P W0 [] 10 (TagInternal "type", cls_union cs) (dict [("x", VInt 2); ("type", VStr "C")]) None None = Raise (XSerde MUnionDe).
  Proof.
    apply (C15_unknown P W0 [] 8 "type" cs); [apply own_unionb_ok; vm_compute; reflexivity|exact classes|].
    intros c y [<-|[<-|[]]] X; injection X as <-; vm_compute; reflexivity.
  Qed.
  Example C15_to_ex : exists kvs, to_dict P W0 [] 10 b1 (Some (TagInternal "type", cls_union cs)) None None false = Ok (VMap MDict kvs) /\ skey P kvs "type" = Some (VStr "B") /\ skey P kvs "y" = Some (VStr "q").
  Proof.
    destruct (C15_to P W0 [] 8 "type" [TClass "A"; TClass "B"] [TClass "A"] "B" [] b1 MDict [(VStr "x", VInt 2); (VStr "y", VStr "q")] None None false) as (kvs & A & B & C & _);
      try reflexivity; [apply own_unionb_ok; vm_compute; reflexivity|repeat constructor|apply foreignb_ok; reflexivity|constructor|].
    exists kvs. split; [exact A|]. split; [exact B|]. rewrite C by discriminate. reflexivity.
  Qed.
  Example C16_ex : from_dict P W0 [] 10 (TagAdjacent "t" "c", cls_union cs) (dict [("c", dict [("x", VInt 2)]); ("t", VStr "A"); ("x", VInt 7)]) None None = Ok (VObj "A" [("x", VInt 2)]).
  Proof.
    unfold dict at 1. rewrite (C16_from P W0 [] 8 "t" "c" cs "A" _ _ (dict [("x", VInt 2)])); [vm_compute; reflexivity|apply own_unionb_ok; vm_compute; reflexivity|exact classes|cbn; auto| |vm_compute; reflexivity|vm_compute; reflexivity].
    discriminate.
  Qed.
  Example C16_unknown_ex : from_dict P W0 [] 10 (TagAdjacent "t" "c", cls_union cs) (dict [("t", VStr "A"); ("x", VInt 7)]) None None = Raise (XSerde MUnionDe).
  Proof. apply (C16_unknown P W0 [] 8 "t" "c" cs); [apply own_unionb_ok; vm_compute; reflexivity|exact classes|left; reflexivity]. Qed.
  Example C16_to_ex : to_dict P W0 [] 10 a1 (Some (TagAdjacent "t" "c", cls_union cs)) None None false = Ok (dict [("c", dict [("x", VInt 1)]); ("t", VStr "A")]).
  Proof.
    apply (C16_to P W0 [] 8 "t" "c" [TClass "A"; TClass "B"] [] "A" [TClass "B"]); try reflexivity; [apply own_unionb_ok; vm_compute; reflexivity|repeat constructor|constructor|constructor|discriminate].
  Qed.

  (** Union[int, A, B] untagged: the mapping fits A first, although B would fit as well. *)
  Definition mix := [TInt; TClass "A"; TClass "B"; TNone].
  Definition both := dict [("x", VInt 2); ("y", VStr "q")].
  Lemma mix_own tg : own_union P [] tg mix. Proof. apply own_unionb_ok. destruct tg; vm_compute; reflexivity. Qed.
  Lemma mix_read tg : readable_union P W0 tg mix.
  Proof. split; [repeat constructor; discriminate|]. eexists. destruct tg; vm_compute; reflexivity. Qed.
  Lemma int_rejects : rejects P W0 [] (udef P Untagged mix) true None 8 TInt both.
  Proof.
    split; [intros v F; apply C17_prim in F as (F & _); [discriminate|reflexivity]|].
    intros p t' PA D G. inversion PA; subst; discriminate.
  Qed.
  Example C17_ex : from_dict P W0 [] 10 (Untagged, TUnion mix) both None None = Ok (VObj "A" [("x", VInt 2)]).
  Proof.
    apply (C17_first P W0 [] 8 Untagged mix both None None _ (mix_own _) (mix_read _)). exists [TInt], (TClass "A"), [TClass "B"; TNone].
    split; [reflexivity|]. split; [|constructor; [exact int_rejects|constructor]].
    apply (C17_class P W0 [] 8 Untagged mix None "A" both _ TagExternal); [apply mix_own|cbn; auto|eexists; repeat split; reflexivity| |].
    - intros p PA. inversion PA as [? [A|A]| | |]; subst; try discriminate; reflexivity.
    - exists both. split; [constructor; now right|]. split; vm_compute; reflexivity.
  Qed.
  Example C17_none_ex : from_dict P W0 [] 10 (Untagged, TUnion [TInt; TNone; TString]) (VBool true) None None = Ok (VBool true) /\
    from_dict P W0 [] 10 (Untagged, TUnion [TInt; TNone; TString]) (vlist []) None None = Raise (XSerde MUnionDe).
  Proof.
    assert (U : own_union P [] Untagged [TInt; TNone; TString]) by (apply own_unionb_ok; vm_compute; reflexivity).
    assert (R : readable_union P W0 Untagged [TInt; TNone; TString]) by (split; [repeat constructor; discriminate|eexists; vm_compute; reflexivity]).
    split.
    - apply (C17_first P W0 [] 8 _ _ _ None None _ U R). exists [], TInt, [TNone; TString]. split; [reflexivity|]. split; [|constructor].
      apply C17_prim; [reflexivity|]. repeat split; reflexivity.
    - apply (C17_none P W0 [] 8 _ _ _ None None _ U R). split; [reflexivity|].
      repeat constructor; try (intros v F; (apply C17_prim in F as (F & _); [discriminate|reflexivity]) || (apply C17_nonetype in F as (F & _); [discriminate|reflexivity]));
        intros p t' PA D G; inversion PA; subst; discriminate.
  Qed.

  Lemma mix_write : writable P (mix ++ [TEnum "E"]). Proof. repeat constructor. Qed.
  Lemma mix_own' tg : own_union P [] tg (mix ++ [TEnum "E"]). Proof. apply own_unionb_ok. destruct tg; vm_compute; reflexivity. Qed.
  Example C18_foreign_ex : to_dict P W0 [] 10 (VStr "s") (Some (TagExternal, TUnion (mix ++ [TEnum "E"]))) None None false = Raise (XSerde (MWrap (XSerde MUnionSe))).
  Proof. apply (C18_foreign_partial P W0 [] 8); [apply mix_own'|exact mix_write|apply foreignb_ok; reflexivity]. Qed.
  Example C18_first_ex : to_dict P W0 [] 10 (VEnum "E" "one") (Some (TagExternal, TUnion (mix ++ [TEnum "E"]))) None None false = Ok (VInt 1).
  Proof.
    rewrite (C18_first_partial P W0 [] 8 TagExternal (mix ++ [TEnum "E"]) (VEnum "E" "one") None None false mix (TEnum "E") [] (mix_own' _) mix_write); try reflexivity; [apply foreignb_ok; reflexivity|constructor].
  Qed.

  (** An object of a class derived from a member is written as that member, with all its own fields, and one
      that is a subclass of int as an int. *)
  Definition base (b : string) (d : classdef) : classdef :=
    {| c_id := c_id d; c_name := c_name d; c_fields := c_fields d; c_mro := b :: c_mro d; c_rename_all := c_rename_all d; c_reuse := c_reuse d;
       c_conv := c_conv d; c_skip_if_default := c_skip_if_default d; c_skip_if_none := c_skip_if_none d; c_serializer := c_serializer d;
       c_deserializer := c_deserializer d; c_tagging := c_tagging d; c_check := c_check d; c_ser_class_var := c_ser_class_var d;
       c_class_vars := c_class_vars d; c_transparent := c_transparent d; c_class_ser := c_class_ser d; c_class_de := c_class_de d;
       c_deny := c_deny d; c_tvars := c_tvars d; c_post := c_post d; c_hashable := c_hashable d |}.
  Definition P2 := prog [cls "A" [fld "x" TInt]; cls "B" [fld "y" TInt]; base "B" (cls "D" [fld "y" TInt; fld "z" TInt])] [].
  Definition u2 := [TInt; TClass "A"; TClass "B"].
  Example C18_base_ex : to_dict P2 W0 [] 10 (VObj "D" [("y", VInt 1); ("z", VInt 2)]) (Some (TagExternal, TUnion u2)) None None false =
    Ok (dict [("B", dict [("y", VInt 1); ("z", VInt 2)])]).
  Proof.
    rewrite (C18_first_partial P2 W0 [] 8 TagExternal u2 (VObj "D" [("y", VInt 1); ("z", VInt 2)]) None None false [TInt; TClass "A"] (TClass "B") []);
      [reflexivity|apply own_unionb_ok; vm_compute; reflexivity|repeat constructor|reflexivity|apply foreignb_ok; reflexivity| |reflexivity].
    eapply io_base; [reflexivity|now left].
  Qed.
  Example C18_derived_ex : to_dict P2 W0 [] 10 (VSub "MyInt" (VInt 4)) (Some (TagExternal, TUnion u2)) None None false = Ok (VSub "MyInt" (VInt 4)).
  Proof.
    rewrite (C18_first_partial P2 W0 [] 8 TagExternal u2 (VSub "MyInt" (VInt 4)) None None false [] TInt [TClass "A"; TClass "B"]);
      [reflexivity|apply own_unionb_ok; vm_compute; reflexivity|repeat constructor|reflexivity|constructor|repeat constructor|reflexivity].
  Qed.
End UnionEx.

(** C18 is false for Literal members, which accept every object (core.py:524), ... *)
Theorem C18_literal_refuted : exists P, own_union P [] TagExternal [TLit [LStr "a"]; TString] /\
  to_dict P W0 [] 10 (VInt 3) (Some (TagExternal, TUnion [TLit [LStr "a"]; TString])) None None false = Ok (VInt 3).
Proof. exists (prog [] []). split; [apply own_unionb_ok; vm_compute; reflexivity|vm_compute; reflexivity]. Qed.
(** ... and for containers, of which only the first element is looked at (core.py:412-420). *)
Theorem C18_list_refuted : exists P, own_union P [] TagExternal [TList LList TInt; TString] /\
  to_dict P W0 [] 10 (vlist [VInt 1; VStr "a"]) (Some (TagExternal, TUnion [TList LList TInt; TString])) None None false = Ok (vlist [VInt 1; VStr "a"]).
Proof. exists (prog [] []). split; [apply own_unionb_ok; vm_compute; reflexivity|vm_compute; reflexivity]. Qed.

(** C45 is false: with a union as class argument the options of to_dict are dropped. *)
Theorem C45_union_options_refuted : exists P,
  let u := [TClass "A"; TClass "B"] in let o := VObj "A" [("s", VSeq KSet [VInt 1]); ("n", VNone)] in
  to_dict P W0 [] 10 o None (Some false) (Some true) true = Ok (dict [("s", vlist [VInt 1])]) /\
  to_dict P W0 [] 10 o (Some (TagExternal, TUnion u)) (Some false) (Some true) true =
    Ok (dict [("A", dict [("s", VSeq KSet [VInt 1]); ("n", VNone)])]).
Proof. exists (prog [cls "A" [fld "s" (TSet SkSet TInt); fld "n" (TOpt TInt)]; cls "B" [fld "x" TInt]] []). split; vm_compute; reflexivity. Qed.

(** C46 is false: a frozenset member of a union is never read back, the check is made against
    set[...] (compat.py:154-260, de.py:1478). *)
Theorem C46_frozenset_refuted : exists P,
  let u := TUnion [TSet SkFrozen TInt; TString] in let o := VSeq KFrozen [VInt 1] in
  to_dict P W0 [] 10 o (Some (TagExternal, u)) None None false = Ok (VSeq KSet [VInt 1]) /\
  from_dict P W0 [] 10 (TagExternal, u) (VSeq KSet [VInt 1]) None None = Raise (XSerde MUnionDe).
Proof. exists (prog [] []). split; vm_compute; reflexivity. Qed.

Print Assumptions C14_from.
Print Assumptions C14_unknown.
Print Assumptions C14_to.
Print Assumptions C15_from.
Print Assumptions C15_unknown.
Print Assumptions C15_to.
Print Assumptions C16_from.
Print Assumptions C16_unknown.
Print Assumptions C16_to.
Print Assumptions C17_first.
Print Assumptions C17_none.
Print Assumptions C17_prim.
Print Assumptions C17_nonetype.
Print Assumptions C17_class.
Print Assumptions C17_class_rejects.
Print Assumptions C18_foreign_partial.
Print Assumptions C18_first_partial.
Print Assumptions C18_literal_refuted.
Print Assumptions C18_list_refuted.
Print Assumptions C45_union_options_refuted.
Print Assumptions C46_frozenset_refuted.
