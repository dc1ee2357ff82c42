(** Values are written element by element: C64. *)
From Coq Require Import String List ZArith Bool Lia.
From Verif Require Import Base PyVal PyType Program Compat Syntax SeRender DeRender Eval Facts Mono Spec Cover Depend SeRT DeRT Transport PropsSe PropsDe PropsUnion PropsField PropsBare PropsSkipFlat PropsElem Decide Ex.
Import ListNotations.
Open Scope string_scope.
Open Scope list_scope.

Section Put.
  Variables (P : program) (W : world) (K : list (tagging * pytype)).

  (** * Specification *)

  (** The value of an enum member; a value that is a member of another enum stands for the value of that one. *)
  Inductive worth : pyval -> pyval -> Prop :=
  | wo_plain c m e x : get_enum P c = Some e -> slookup m (e_members e) = Some x -> (forall c' m', x <> VEnum c' m') -> worth (VEnum c m) x
  | wo_deep c m e x y : get_enum P c = Some e -> slookup m (e_members e) = Some x -> worth x y -> worth (VEnum c m) y.
  (** What is written for a value annotated with the enum [c]: anything but an enum member is looked up first. *)
  Inductive enum_form (c : string) : pyval -> pyval -> Prop :=
  | ef_member c' m y : worth (VEnum c' m) y -> enum_form c (VEnum c' m) y
  | ef_value x m e y : (forall c' m', x <> VEnum c' m') -> member P c x (VEnum c m) -> get_enum P c = Some e -> slookup m (e_members e) = Some y ->
      enum_form c x y.

  (** Types that are written without a look at the value: a tuple may lack the elements of such types. *)
  Fixpoint unseen (t : pytype) : option pyval :=
    match t with
    | TNone => Some VNone
    | TAlias _ a | TClassVar a => unseen a
    | TTuple l => option_map (VSeq KTuple) (all_some unseen l)
    | _ => None
    end.
  (** The values [l] of a tuple are written for the items of [x], by the relation [R], from the item [i] on. *)
  Definition each_part (R : pytype -> pyval -> pyval -> Prop) (x : pyval) : nat -> list pytype -> list pyval -> Prop :=
    fix go i ts l := match ts, l with
      | [], [] => True
      | t :: ts, y :: l => ((exists e, item P x i e /\ R t e y) \/ unseen t = Some y) /\ go (S i) ts l
      | _, _ => False
      end.

  (** The object [v] passes for the type [t] when a member of a union is looked for: of lists, sets and dicts only the first
      element counts, of tuples every one; literals are not compared. *)
  Definition sequence (k : listkind) (s : seqkind) : Prop :=
    match k with LList => s = KList | LMutSeq => s = KList \/ s = KDeque | LSequence => s = KList \/ s = KDeque \/ s = KTuple end.
  Inductive fits : pyval -> pytype -> Prop :=
  | fi_leaf v t : simple t = true -> instance_of P v t -> fits v t
  | fi_gen v c a : instance_of P v (TClass c) -> fits v (TGen c a)
  | fi_any v : fits v TAny
  | fi_var v n : fits v (TVar n)
  | fi_lit v l : fits v (TLit l)
  | fi_union v l t : In t l -> fits v t -> fits v (TUnion l)
  | fi_list k s l a : sequence k s -> (forall x r, l = x :: r -> fits x a) -> fits (VSeq s l) (TList k a)
  | fi_set k s l a : s = KSet \/ s = KFrozen -> (forall x r, l = x :: r -> fits x a) -> fits (VSeq s l) (TSet k a)
  | fi_deque l a : (forall x r, l = x :: r -> fits x a) -> fits (VSeq KDeque l) (TDeque a)
  | fi_counter l a : (forall k n r, l = (k, n) :: r -> fits k a) -> fits (VMap MCounter l) (TCounter a)
  | fi_dict m l k a b : (forall x y r, l = (x, y) :: r -> fits x a) -> (forall x y r, l = (x, y) :: r -> fits y b) -> fits (VMap m l) (TDict k a b)
  | fi_tuple l ts : Forall2 fits l ts -> fits (VSeq KTuple l) (TTuple ts)
  | fi_vartuple l a : (forall x, In x l -> fits x a) -> fits (VSeq KTuple l) (TVarTuple a)
  | fi_blist k s l : sequence k s -> fits (VSeq s l) (TBare (BList k))
  | fi_bset k s l : s = KSet \/ s = KFrozen -> fits (VSeq s l) (TBare (BSet k))
  | fi_bdict k m l : fits (VMap m l) (TBare (BDict k))
  | fi_btuple l : fits (VSeq KTuple l) (TBare BTuple)
  | fi_bdeque l : fits (VSeq KDeque l) (TBare BDeque)
  | fi_bcounter l : fits (VMap MCounter l) (TBare BCounter)
  | fi_other c b v : c = b \/ p_sub P c b = true -> fits (VOpaque c v) (TOther b)
  (** Aliases and class variables are left to beartype. *)
  | fi_alias v n a : bear P W v a = true -> fits v (TAlias n a)
  | fi_classvar v a : bear P W v a = true -> fits v (TClassVar a).

  Section Writes.
    (** The tagging of the class, and the options *)
    Variables (tg : tagging) (reuse conv skip : bool).

    Definition object_form (named : bool) (x y : pyval) : Prop :=
      (exists c fs, x = VObj c fs) /\
      exists n, (if named then to_dict else to_tuple) P W K n x None (Some reuse) (Some conv) skip = Ok y.

    (** [y] is written for the value [x] of an attribute with the annotation [t], whether or not [x] belongs to [t].
        [named] tells to_dict from to_tuple, [co] whether the class coerces.  Nothing is said of class variables (see C56)
        and of subclasses of primitives in classes that coerce. *)
    Fixpoint Writes (t : pytype) (named co : bool) (x y : pyval) {struct t} : Prop :=
      match t with
      | TPrim p | TNewType _ p => if co then converted P W (TPrim p) x y else y = x
      | TPrimSub _ _ => co = false -> y = x
      | TNone => y = VNone
      | TAny | TVar _ => exists n, to_dict P W K n x (Some (TagExternal, TAny)) (Some false) (Some false) skip = Ok y
      | TUnion l =>
        if optional l then (x = VNone /\ y = VNone) \/ (x <> VNone /\ match l with a :: _ => Writes a named co x y | [] => False end)
        else (** the first member that the value fits, in the dict form and without coercion; dataclasses are tagged *)
          (fix first l := match l with
           | [] => False
           | t :: r => (fits x t /\ match t with
                        | TClass c => exists w, object_form true x w /\ tagged P tg (class_name P c) w = Ok y
                        | _ => Writes t true false x y
                        end) \/ (~ fits x t /\ first r)
           end) l
      | TList _ a | TDeque a => exists l l', elements P x l /\ Forall2 (Writes a named co) l l' /\ y = VSeq KList l'
      | TVarTuple a => exists l l', elements P x l /\ Forall2 (Writes a named co) l l' /\ y = VSeq KTuple l'
      | TSet _ a => exists l l', elements P x l /\ Forall2 (Writes a named co) l l' /\
          if conv then y = VSeq KList l' else exists s, set_from P l' s /\ y = VSeq KSet s
      | TCounter a => exists k l l' m, x = VMap k l /\ Forall2 (fun kv kv' => Writes a named co (fst kv) (fst kv') /\ snd kv' = snd kv) l l' /\
          keyed P l' m /\ y = VMap MDict m
      | TDict _ a b => exists k l l' m, x = VMap k l /\ Forall2 (fun kv kv' => Writes a named co (fst kv) (fst kv') /\ Writes b named co (snd kv) (snd kv')) l l' /\
          keyed P l' m /\ y = VMap MDict m
      | TTuple ts => exists l', y = VSeq KTuple l' /\ each_part (fun t => Writes t named co) x 0 ts l'
      | TBare (BList LList) | TBare BTuple => y = x
      | TBare (BList _) | TBare BDeque => exists l, elements P x l /\ y = VSeq KList l
      | TBare (BSet _) => if conv then exists l, elements P x l /\ y = VSeq KList l else y = x
      | TBare BCounter => exists k l, x = VMap k l /\ y = VMap MDict l
      | TBare (BDict DkDefault) => False
      | TBare (BDict _) => y = x
      | TEnum c => enum_form c x y
      | TClass _ | TGen _ _ => object_form named x y
      | TLit _ => y = x
      | TStr _ => if reuse then y = x else y = VStr (py_str P W x)
      | TDate _ => if reuse then y = x else exists k s, x = VDate k s /\ y = VStr s
      | TAlias _ a => Writes a named co x y
      | TClassVar _ => True
      | TOther _ => False
      end.
  End Writes.

  (** * Lemmas *)

  Lemma unwrap_worth n : forall x y, enum_unwrap P n x = Ok y -> worth x y.
  Proof.
    induction n as [|n IH]; intros x y H; destruct x; try discriminate H. cbn [enum_unwrap] in H. unfold enum_member in H.
    destruct (get_enum P c) as [e|] eqn:G; [|discriminate H]. destruct (slookup m (e_members e)) as [x|] eqn:S1; [|discriminate H]. cbn [of_option bind] in H.
    destruct x; try (injection H as <-; eapply wo_plain; [eassumption|eassumption|discriminate]). eapply wo_deep; eauto.
  Qed.
  Lemma enum_written c x y : enum_value P c x = Ok y -> enum_form c x y.
  Proof.
    intros H. unfold enum_value in H.
    assert (T : (forall c' m', x <> VEnum c' m') -> (e <- enum_call P c x ;; match e with VEnum c m => of_option XAttr (enum_member P c m) | _ => Raise XType end) = Ok y -> enum_form c x y).
    { intros N Q. inv_bind Q. assert (M := enum_member_of _ _ _ _ Hb). assert (X : exists m, a = VEnum c m) by (inversion M; eauto). destruct X as [m ->].
      unfold enum_member in Q. destruct (get_enum P c) as [e|] eqn:G; [|discriminate Q]. destruct (slookup m (e_members e)) as [z|] eqn:S1; [|discriminate Q].
      injection Q as <-. eapply ef_value; eassumption. }
    destruct x; try (apply T; [discriminate|exact H]). apply ef_member. eapply unwrap_worth. exact H.
  Qed.

  Lemma sequence_iff k s : list_inst k s = true <-> sequence k s.
  Proof. destruct k, s; cbn; intuition discriminate. Qed.
  Lemma setkind_iff s : is_setkind s = true <-> s = KSet \/ s = KFrozen.
  Proof. destruct s; cbn; intuition discriminate. Qed.
  Lemma head_iff {A} (f : A -> bool) l : head_ok f l = true <-> forall x r, l = x :: r -> f x = true.
  Proof. destruct l as [|x l]; cbn; split; intros H; try reflexivity; [intros; discriminate|intros y r E; now injection E as <- _|eauto]. Qed.
  Ltac nofit := split; [discriminate|intros X; inversion X; discriminate].

  Lemma fits_iff t : forall v, is_instance P W v t = true <-> fits v t.
  Proof.
    induction t using pytype_ind'; intros v;
      try (change (is_instance P W v ?t) with (isa P v t); rewrite (isa_instance P) by reflexivity; split; [now constructor|intros X; now inversion X]).
    all: cbn [is_instance].
    - split; [intros _; solve [constructor]|reflexivity].
    - rewrite existsb_exists. rewrite Forall_forall in H. split.
      + intros (t & I & E). apply fi_union with t; [exact I|]. now apply H.
      + intros X. inversion X; subst; [discriminate|]. exists t. split; [assumption|]. now apply H.
    - destruct v; try nofit. rewrite andb_true_iff, sequence_iff, head_iff. split.
      + intros [A B]. constructor; [exact A|]. intros x r E. apply IHt. eauto.
      + intros X. inversion X; subst; [discriminate|]. split; [assumption|]. intros x r E. apply IHt. eauto.
    - destruct v; try nofit. rewrite andb_true_iff, setkind_iff, head_iff. split.
      + intros [A B]. constructor; [exact A|]. intros x r E. apply IHt. eauto.
      + intros X. inversion X; subst; [discriminate|]. split; [assumption|]. intros x r E. apply IHt. eauto.
    - destruct v as [| | | | | |[]| | | | | |]; try nofit. rewrite head_iff. split.
      + intros B. apply fi_deque. intros x r E. apply IHt. eauto.
      + intros X. inversion X; subst; [discriminate|]. intros x r E. apply IHt. eauto.
    - destruct v as [| | | | | | |[]| | | | |]; try nofit. rewrite head_iff. split.
      + intros B. apply fi_counter. intros x n r E. apply IHt. exact (B (x, n) r E).
      + intros X. inversion X; subst; [discriminate|]. intros [x n] r E. apply IHt. eauto.
    - destruct v; try nofit. rewrite head_iff. split.
      + intros B. apply fi_dict; intros x y r E; specialize (B _ _ E); apply andb_prop in B as [B1 B2]; [apply IHt1|apply IHt2]; assumption.
      + intros X. inversion X; subst; [discriminate|]. intros [x y] r E. cbn [fst snd]. apply andb_true_intro. split; [apply IHt1|apply IHt2]; eauto.
    - destruct v as [| | | | | |[]| | | | | |]; try nofit. rename l0 into vs. transitivity (Forall2 fits vs l).
      + revert vs. induction H as [|t l Ht F IH]; intros [|x vs]; try (split; [discriminate|intros X; inversion X]); [split; [constructor|reflexivity]|].
        rewrite andb_true_iff, Ht, IH. split; [intros []; now constructor|intros X; now inversion X].
      + split; [now constructor|]. intros X; inversion X; subst; [discriminate|assumption].
    - destruct v as [| | | | | |[]| | | | | |]; try nofit. rewrite forallb_forall. split.
      + intros B. apply fi_vartuple. intros x I. apply IHt. auto.
      + intros X. inversion X; subst; [discriminate|]. intros x I. apply IHt. auto.
    - destruct b; destruct v; try nofit; try (destruct k; nofit).
      + rewrite sequence_iff. split; [now constructor|]. intros X; inversion X; subst; [discriminate|assumption].
      + rewrite setkind_iff. split; [now constructor|]. intros X; inversion X; subst; [discriminate|assumption].
      + split; [intros _; solve [constructor]|reflexivity].
      + destruct k; try nofit. split; [intros _; solve [constructor]|reflexivity].
      + destruct k; try nofit. split; [intros _; solve [constructor]|reflexivity].
      + destruct k; try nofit. split; [intros _; solve [constructor]|reflexivity].
    - change (named_inst P v (TClass c)) with (isa P v (TClass c)). rewrite (isa_instance P) by reflexivity. split; [now constructor|intros X; inversion X; subst; [discriminate|assumption]].
    - split; [intros _; solve [constructor]|reflexivity].
    - split; [intros _; solve [constructor]|reflexivity].
    - split; [now constructor|intros X; inversion X; subst; [discriminate|assumption]].
    - split; [now constructor|intros X; inversion X; subst; [discriminate|assumption]].
    - change (bear P W v (TOther c)) with (named_inst P v (TOther c)). destruct v; try (split; [discriminate|intros X; inversion X; discriminate]).
      cbn [named_inst]. rewrite (sub_instance P). split; [now constructor|intros X; inversion X; subst; [discriminate|assumption]].
  Qed.

  Definition covers (d : classdef) (t : pytype) : Prop :=
    (forall u, needed u = true -> sub_ty u t -> In u (iter_types P d)) /\ (forall l, sub_ty (TUnion l) t -> In (TUnion l) (iter_unions P d)).
  Lemma covers_sub d t u : covers d t -> sub_ty u t -> covers d u.
  Proof. intros [A B] H. split; intros; [apply A|apply B]; eauto using sub_ty_trans. Qed.

  Section Code.
    Variables (n : nat) (cx : ctx) (d : classdef) (cfg : secfg) (nm : bool).
    Hypotheses (NoSers : p_sers P = []) (Pl : se_plain cfg nm true).
    Notation ev := (eval P W (run P W K n) cx).
    Notation wr t := (Writes (c_tagging d) (x_reuse cx) (x_conv cx) (x_skip cx) t nm (negb (r_suppress cfg))).

    Lemma comp_w rho x t e var k v : ev rho var = Ok x ->
      (forall rho var x e v, ev rho var = Ok x -> se_ty P cfg false var t = Ok e -> ev rho e = Ok v -> wr t x v) ->
      se_ty P cfg false (EVar "v") t = Ok e -> ev rho (EComp k e var) = Ok v ->
      exists l l', elements P x l /\ Forall2 (wr t) l l' /\ mk_seq P k l' = Ok v.
    Proof.
      intros D IH E V. cbn [eval] in V. rewrite D in V. cbn [bind] in V. inv_bind V. inv_bind V. rename a into l, a0 into l'.
      exists l, l'. split; [now apply iter_elements|]. split; [|exact V]. apply mapM_Ok in Hb0. clear Hb V. induction Hb0 as [|y z l l' Q F IHF]; constructor; [|exact IHF].
      eapply IH; [|exact E|exact Q]. reflexivity.
    Qed.

    Lemma dead_w {B} (r : res pyval) (f : pyval -> res B) y : (forall x, r <> Ok x) -> (q <- r ;; f q) <> Ok y.
    Proof. intros N H. destruct r as [z| |]; try discriminate H. now destruct (N z). Qed.

    Lemma no_comp rho var k e v : (forall x, ev rho var <> Ok x) -> ev rho (EComp k e var) <> Ok v.
    Proof. intros N V. cbn [eval] in V. now apply dead_w in V. Qed.
    Lemma no_mapcomp rho var ek e v : (forall x, ev rho var <> Ok x) -> ev rho (EMapComp ek e var) <> Ok v.
    Proof. intros N V. cbn [eval] in V. now apply dead_w in V. Qed.
    Lemma no_coerce rho var c f t v : (forall x, ev rho var <> Ok x) -> ev rho (ECoerce c f t var) <> Ok v.
    Proof. intros N V. cbn [eval] in V. destruct (resolve P (x_g cx) t); try discriminate V. cbn [bind] in V. now apply dead_w in V. Qed.
    Lemma if_conv rho a b v : ev rho (EIf EConv a b) = Ok v -> (if x_conv cx then ev rho a else ev rho b) = Ok v.
    Proof. cbn [eval bind]. rewrite truthy_bool. auto. Qed.
    Lemma if_reuse rho a b v : ev rho (EIf EReuse a b) = Ok v -> (if x_reuse cx then ev rho a else ev rho b) = Ok v.
    Proof. cbn [eval bind]. rewrite truthy_bool. auto. Qed.

    Lemma no_value t : forall rho var e v, (forall x, ev rho var <> Ok x) -> se_ty P cfg false var t = Ok e -> ev rho e = Ok v -> unseen t = Some v.
    Proof.
      induction t using pytype_ind'; intros rho var e v N E V; rewrite (se_ty_simple P NoSers cfg nm true _ _ Pl) in E; unfold SeRT.se_simple in E; cbv zeta in E;
        try (destruct (r_suppress cfg); injection E as <-; exfalso; [exact (N _ V)|exact (no_coerce _ _ _ _ _ _ N V)]);
        try (inv_bind E; injection E as <-; exfalso; exact (no_comp _ _ _ _ _ N V));
        try (inv_bind E; injection E as <-; exfalso; exact (no_mapcomp _ _ _ _ _ N V));
        try (injection E as <-; exfalso; exact (N _ V));
        try (injection E as <-; exfalso; cbn [eval] in V; exact (dead_w _ _ _ N V));
        try (injection E as <-; exfalso; apply if_reuse in V; destruct (x_reuse cx); [exact (N _ V)|cbn [eval] in V; exact (dead_w _ _ _ N V)]).
      - injection E as <-. injection V as <-. reflexivity.
      - exfalso. destruct (opt_arg (TUnion l)); [inv_bind E|]; injection E as <-; cbn [eval] in V; [|exact (dead_w _ _ _ N V)].
        destruct (ev rho var) as [z| |]; try discriminate V. exact (N _ eq_refl).
      - inv_bind E. injection E as <-. exfalso. apply if_conv in V. destruct (x_conv cx); exact (no_comp _ _ _ _ _ N V).
      - inv_bind E. inv_bind E. injection E as <-. exfalso. exact (no_mapcomp _ _ _ _ _ N V).
      - destruct l as [|t0 l0]; [discriminate E|]. remember (t0 :: l0) as l eqn:L. clear L t0 l0. inv_bind E. injection E as <-. cbn [eval] in V. inv_bind V. injection V as <-. rename a into es1, a0 into l'.
        cbn [unseen]. enough (X : all_some unseen l = Some l') by now rewrite X. clear -H N Hb Hb0 NoSers Pl. revert Hb Hb0. generalize 0 as i. intros i. revert i es1 l'.
        induction H as [|t l Ht F IH]; intros i es1 l' E V; cbn [mapMi_from] in E.
        + injection E as <-. injection V as <-. reflexivity.
        + inv_bind E. inv_bind E. injection E as <-. cbn [mapM] in V. inv_bind V. inv_bind V. injection V as <-. cbn [all_some].
          rewrite (Ht rho (EIdx var i) _ _ ltac:(intros x X; cbn [eval] in X; exact (dead_w _ _ _ N X)) Hb Hb1). now rewrite (IH _ _ _ Hb0 Hb2).
      - exfalso. destruct b as [[]|[]|[]| | |]; try discriminate E; injection E as <-; try exact (N _ V); try (cbn [eval] in V; exact (dead_w _ _ _ N V));
          apply if_conv in V; destruct (x_conv cx); try exact (N _ V); cbn [eval] in V; exact (dead_w _ _ _ N V).
      - injection E as <-. exfalso. cbn [eval] in V. destruct (resolve P (x_g cx) (TEnum c)); try discriminate V. cbn [bind] in V. exact (dead_w _ _ _ N V).
      - exact (IHt _ _ _ _ N E V).
      - exact (IHt _ _ _ _ N E V).
      - discriminate E.
    Qed.

    Lemma mapcomp_w rho x ek evv var v : ev rho var = Ok x -> ev rho (EMapComp ek evv var) = Ok v ->
      exists k l l' m, x = VMap k l /\
        Forall2 (fun kv kv' => ev (("k", fst kv) :: ("v", snd kv) :: rho) ek = Ok (fst kv') /\ ev (("k", fst kv) :: ("v", snd kv) :: rho) evv = Ok (snd kv')) l l' /\
        keyed P l' m /\ v = VMap MDict m.
    Proof.
      intros D V. cbn [eval] in V. rewrite D in V. cbn [bind] in V. destruct x; try discriminate V. cbn [items bind] in V. inv_bind V. inv_bind V. injection V as <-.
      rename a into l', a0 into m. exists k, l, l', m. split; [reflexivity|]. split; [|split; [split; [|now apply mk_map_entries]|reflexivity]].
      - apply mapM_Ok in Hb. clear -Hb. induction Hb as [|kv kv' l l' H F IH]; constructor; [|exact IH]. cbv zeta in H. inv_bind H. inv_bind H.
      destruct (hashable P a); [|discriminate H]. injection H as <-. cbn [fst snd]. auto.
      - apply mapM_Ok in Hb. clear -Hb. induction Hb as [|kv kv' l l' H F IH]; constructor; [|exact IH]. cbv zeta in H. inv_bind H. inv_bind H.
        destruct (hashable P a) eqn:HA; [|discriminate H]. injection H as <-. now apply C50_hash.
    Qed.

    Lemma tuple_w rho x var l : ev rho var = Ok x ->
      Forall (fun t => covers d t -> forall rho var x e v, ev rho var = Ok x -> se_ty P cfg false var t = Ok e -> ev rho e = Ok v -> wr t x v) l -> (forall t, In t l -> covers d t) ->
      forall i es0 l', mapMi_from (fun n a => se_ty P cfg false (EIdx var n) a) i l = Ok es0 -> mapM (ev rho) es0 = Ok l' -> each_part (fun t => wr t) x i l l'.
    Proof.
      intros D F. induction F as [|t l Ht F IH]; intros WI i es0 l' E V; cbn [mapMi_from] in E.
      - injection E as <-. injection V as <-. exact I.
      - inv_bind E. inv_bind E. injection E as <-. cbn [mapM] in V. inv_bind V. inv_bind V. injection V as <-. rename a into e, a0 into es1, a1 into y, a2 into l'.
        split; [|apply (IH ltac:(intros u Hu; apply WI; now right) (S i) es1 l' Hb0 Hb2)].
        destruct (ev rho (EIdx var i)) as [z| |] eqn:X.
        + left. exists z. assert (X2 := X). cbn [eval] in X2. rewrite D in X2. cbn [bind] in X2. split; [now apply getidx_item|].
          exact (Ht (WI t ltac:(now left)) _ _ _ _ _ X Hb Hb1).
        + right. refine (no_value _ _ _ _ _ _ Hb Hb1). intros z. rewrite X. discriminate.
        + right. refine (no_value _ _ _ _ _ _ Hb Hb1). intros z. rewrite X. discriminate.
    Qed.

    Lemma seq_of k l v : is_setkind k = false -> mk_seq P k l = Ok v -> v = VSeq k l.
    Proof. intros S1 H. unfold mk_seq in H. rewrite S1 in H. congruence. Qed.

    Lemma object_w x v named : named = nm -> match x with
        | VObj c _ => d <- of_option XAttr (get_class P c) ;; run P W K n (QSe d x named (Some (x_reuse cx)) (Some (x_conv cx)) (x_skip cx))
        | _ => Raise XAttr
        end = Ok v -> object_form (x_reuse cx) (x_conv cx) (x_skip cx) nm x v.
    Proof.
      intros -> H. destruct x; try discriminate H. split; [eauto|]. exists (S n).
      assert (FS : first_ser P (VObj c l) = None) by (unfold first_ser; rewrite NoSers; reflexivity).
      assert (X : run P W K (S n) (QToObj (VObj c l) nm (Some (x_reuse cx)) (Some (x_conv cx)) (x_skip cx) None) = Ok v) by (rewrite to_obj_eq by (assumption || exact I); rewrite H; reflexivity).
      destruct nm; exact X.
    Qed.

  End Code.

  Section Value.
    Variables (d : classdef).
    Hypotheses (NoSers : p_sers P = []) (Names : names_ok P d) (Un : unions_ok P d).

    Lemma writes t : covers d t -> forall n cx cfg nm, se_plain cfg nm true -> x_g cx = se_globals P d -> x_cls cx = d ->
      forall rho var x e v, eval P W (run P W K n) cx rho var = Ok x -> se_ty P cfg false var t = Ok e -> eval P W (run P W K n) cx rho e = Ok v ->
      Writes (c_tagging d) (x_reuse cx) (x_conv cx) (x_skip cx) t nm (negb (r_suppress cfg)) x v.
    Proof.
      induction t using pytype_ind'; intros CV n0 cx cfg nm Pl Glob Cls rho var x e v D E V; rewrite (se_ty_simple P NoSers cfg nm true _ _ Pl) in E; unfold SeRT.se_simple in E; cbv zeta in E;
        (try assert (CT : covers d t) by (eapply covers_sub; [exact CV|constructor; constructor])).
      - cbn [Writes]. destruct (r_suppress cfg); injection E as <-; cbn [negb]; [congruence|]. cbn [eval resolve bind] in V. rewrite D in V. cbn [bind] in V. now apply coerced in V.
      - cbn [Writes]. destruct (r_suppress cfg); injection E as <-; cbn [negb]; [congruence|discriminate].
      - cbn [Writes]. destruct (r_suppress cfg); injection E as <-; cbn [negb]; [congruence|]. cbn [eval resolve bind] in V. rewrite D in V. cbn [bind] in V. now apply coerced in V.
      - injection E as <-. injection V as <-. reflexivity.
      - injection E as <-. cbn [eval] in V. rewrite D in V. cbn [bind] in V. exists n0. exact V.
      - cbn [Writes]. destruct (optional l) eqn:OP.
        + destruct l as [|y [|z [|]]]; try discriminate OP; destruct z; try discriminate OP. cbn [optional] in OP. apply negb_true_iff in OP.
          rewrite opt_arg_some in E by exact OP. inversion H as [|? ? IHy _]; subst. inv_bind E. injection E as <-. cbn [eval] in V. rewrite D in V. cbn [bind] in V. rewrite truthy_bool in V.
          assert (CY : covers (x_cls cx) y) by (eapply covers_sub; [exact CV|eapply sub_union; [now left|constructor]]).
          destruct x; try (right; split; [discriminate|exact (IHy CY n0 cx cfg nm Pl Glob eq_refl _ _ _ _ _ D Hb V)]). left. cbn [eval] in V. split; congruence.
        + rewrite opt_arg_none in E by exact OP. injection E as <-. cbn [eval] in V. rewrite D in V. cbn [bind] in V. destruct n0 as [|n0]; [discriminate V|].
          cbn [run step] in V. rewrite Cls, find_union_ok in V; [|exact Un|apply CV; constructor]. cbn [of_option bind] in V. inv_bind V. inv_bind V. rename a into arms.
          assert (MEM : forall t, In t l -> covers d t) by (intros u Hu; eapply covers_sub; [exact CV|eapply sub_union; [exact Hu|constructor]]).
          assert (CFG : se_plain (union_se_cfg d) true true) by (repeat split).
          clear -V Hb H MEM CFG NoSers Names Un. unfold render_union_se in Hb. revert arms Hb V.
          induction H as [|t l Ht F IH]; intros arms E V; cbn [mapM] in E; [injection E as <-; discriminate V|].
          inv_bind E. inv_bind Hb. inv_bind Hb. injection Hb as <-. inv_bind E. injection E as <-. cbn [run_union_se] in V.
          destruct (is_instance P W x t) eqn:II.
          * left. split; [now apply fits_iff|]. inv_bind V.
            assert (Q := Ht (MEM t ltac:(now left)) n0 (se_ctx P d a0 (x_reuse cx) (x_conv cx) (x_skip cx)) _ _ CFG eq_refl eq_refl _ _ _ _ _ (eq_refl : eval P W (run P W K n0) _ [("obj", x)] obj_var = Ok x) Hb0 Hb2).
            destruct t; cbn [taggable] in V; try (injection V as <-; exact Q).
            match type of Hb2 with _ = Ok ?w => exists w; set (w0 := w) in * end. split; [exact Q|]. cbn [se_ctx x_cls] in V. destruct (c_tagging d); cbn [tagged]; try exact V. clearbody w0. destruct w0; try discriminate V. exact V.
          * right. split; [intros X; apply fits_iff in X; congruence|]. exact (IH ltac:(intros u Hu; apply MEM; now right) _ Hb V).
      - inv_bind E. injection E as <-. destruct (comp_w n0 cx d cfg nm _ _ _ _ _ _ _ D (IHt CT n0 cx cfg nm Pl Glob Cls) Hb V) as (l & l' & A & B & C). apply seq_of in C; [|reflexivity]. exists l, l'. auto.
      - inv_bind E. injection E as <-. apply if_conv in V. cbn [Writes].
        assert (G := fun k => comp_w n0 cx d cfg nm rho x t _ var k v D (IHt CT n0 cx cfg nm Pl Glob Cls) Hb). cbn [Writes].
        assert (X : exists l l', elements P x l /\ Forall2 (Writes (c_tagging d) (x_reuse cx) (x_conv cx) (x_skip cx) t nm (negb (r_suppress cfg))) l l' /\ mk_seq P (if x_conv cx then KList else KSet) l' = Ok v) by (apply G; destruct (x_conv cx); exact V).
        destruct X as (l & l' & A & B & C). exists l, l'. split; [exact A|]. split; [exact B|]. clear -C. destruct (x_conv cx).
        + apply seq_of in C; [exact C|reflexivity].
        + destruct (set_of P KSet l' v eq_refl C) as (s & C1 & C2). eauto.
      - inv_bind E. injection E as <-. destruct (comp_w n0 cx d cfg nm _ _ _ _ _ _ _ D (IHt CT n0 cx cfg nm Pl Glob Cls) Hb V) as (l & l' & A & B & C). apply seq_of in C; [|reflexivity]. exists l, l'. auto.
      - inv_bind E. injection E as <-. destruct (mapcomp_w n0 cx _ _ _ _ _ _ D V) as (k & l & l' & m & A & B & C). exists k, l, l', m. split; [exact A|]. split; [|exact C].
        clear -B Hb IHt CT Pl Glob Cls. induction B as [|kv kv' l l' [Q1 Q2] F IHF]; constructor; [|exact IHF]. split; [refine (IHt CT n0 cx cfg nm Pl Glob Cls _ _ _ _ _ _ Hb Q1); reflexivity|].
        cbn in Q2. congruence.
      - inv_bind E. inv_bind E. injection E as <-. destruct (mapcomp_w n0 cx _ _ _ _ _ _ D V) as (k0 & l & l' & m & A & B & C). exists k0, l, l', m. split; [exact A|]. split; [|exact C].
        assert (C1 : covers d t1) by (eapply covers_sub; [exact CV|constructor; constructor]).
        assert (C2 : covers d t2) by (eapply covers_sub; [exact CV|apply sub_dict_v; constructor]).
        clear -B Hb Hb0 IHt1 IHt2 C1 C2 Pl Glob Cls. induction B as [|kv kv' l l' [Q1 Q2] F IHF]; constructor; [|exact IHF].
        split; [refine (IHt1 C1 n0 cx cfg nm Pl Glob Cls _ _ _ _ _ _ Hb Q1); reflexivity|refine (IHt2 C2 n0 cx cfg nm Pl Glob Cls _ _ _ _ _ _ Hb0 Q2); reflexivity].
      - destruct l as [|t0 l0]; [discriminate E|]. remember (t0 :: l0) as l eqn:L. clear L t0 l0. inv_bind E. injection E as <-. cbn [eval] in V. inv_bind V. injection V as <-. rename a into es1, a0 into l'.
        exists l'. split; [reflexivity|]. refine (tuple_w n0 cx d cfg nm NoSers Pl _ _ _ _ D _ _ _ _ _ Hb Hb0); [eapply Forall_impl; [|exact H]; intros u Hu CU; exact (Hu CU n0 cx cfg nm Pl Glob Cls)|]. intros u Hu. eapply covers_sub; [exact CV|eapply sub_tuple; [exact Hu|constructor]].
      - inv_bind E. injection E as <-. destruct (comp_w n0 cx d cfg nm _ _ _ _ _ _ _ D (IHt CT n0 cx cfg nm Pl Glob Cls) Hb V) as (l & l' & A & B & C). apply seq_of in C; [|reflexivity]. exists l, l'. auto.
      - assert (BL : forall v, eval P W (run P W K n0) cx rho (EBuiltin BkList var) = Ok v -> exists l, elements P x l /\ v = VSeq KList l).
        { intros w Q. cbn [eval] in Q. rewrite D in Q. cbn [bind] in Q. inv_bind Q. injection Q as <-. exists a. split; [apply iter_elements; exact Hb|reflexivity]. }
        destruct b as [[]|[]|[]| | |]; try discriminate E; injection E as <-; cbn [Writes]; try (apply BL; exact V); try congruence;
          try (apply if_conv in V; destruct (x_conv cx); [apply BL; exact V|congruence]).
        cbn [eval] in V. rewrite D in V. cbn [bind] in V. destruct x; try discriminate V. injection V as <-. eauto.
      - injection E as <-. cbn [eval] in V. rewrite Glob, se_lookup in V; [|exact Names|reflexivity|reflexivity|apply CV; [reflexivity|constructor]].
        cbn [bind] in V. rewrite D in V. cbn [bind] in V. now apply enum_written.
      - injection E as <-. cbn [eval] in V. rewrite D in V. cbn [bind] in V. apply (object_w n0 cx cfg nm NoSers Pl) with (2 := V). apply Pl.
      - injection E as <-. cbn [eval] in V. rewrite D in V. cbn [bind] in V. apply (object_w n0 cx cfg nm NoSers Pl) with (2 := V). apply Pl.
      - injection E as <-. cbn [eval] in V. rewrite D in V. cbn [bind] in V. exists n0. exact V.
      - injection E as <-. cbn [Writes]. congruence.
      - injection E as <-. apply if_reuse in V. cbn [Writes]. destruct (x_reuse cx); [congruence|]. cbn [eval] in V. rewrite D in V. cbn [bind] in V. congruence.
      - injection E as <-. apply if_reuse in V. cbn [Writes]. destruct (x_reuse cx); [congruence|]. cbn [eval] in V. rewrite D in V. cbn [bind] in V.
        destruct x; try discriminate V. injection V as <-. eauto.
      - exact I.
      - exact (IHt CT n0 cx cfg nm Pl Glob Cls _ _ _ _ _ D E V).
      - discriminate E.
    Qed.
  End Value.

  (** * C64 *)

  (** No global serializers, and the names in the annotations are those of the classes *)
  Definition usual (d : classdef) : Prop := p_sers P = [] /\ names_ok P d /\ unions_ok P d.
  (** No serializer applies to the field: it is marked default_serializer, or neither it nor the class has one. *)
  Definition put_by_default (d : classdef) (f : fielddef) : Prop :=
    f_serializer f = Some FDefault \/ f_serializer f = None /\ c_class_ser d = None /\ c_serializer d = None.

  (** What is marked is rendered as by a class without serializers. *)
  Definition bare_cfg (cfg : secfg) : secfg :=
    {| r_named := r_named cfg; r_legacy := false; r_suppress := r_suppress cfg; r_class_var := r_class_var cfg; r_class_ser := None; r_name := r_name cfg |}.
  Lemma marked_ty cfg t : p_sers P = [] -> forall var, se_ty P cfg true var t = se_ty P (bare_cfg cfg) false var t.
  Proof.
    intros NS. assert (N : forall t, find_ser P (r_class_ser (bare_cfg cfg)) t = None) by (intros; now apply (find_ser_none P NS)).
    assert (L1 : forall av t v e, legacy_wrap cfg true av t v e = e) by (intros; unfold legacy_wrap; now rewrite andb_false_r).
    assert (L2 : forall av t v e, legacy_wrap (bare_cfg cfg) false av t v e = e) by reflexivity.
    assert (C : forall c var, se_class P cfg true c var = se_class P (bare_cfg cfg) false c var).
    { intros. unfold se_class. rewrite N. destruct (find_ser P (r_class_ser cfg) (TClass c)); rewrite L1, L2; reflexivity. }
    assert (B : forall m1 m2 av t var, m1 = m2 -> (e <- m1 ;; Ok (legacy_wrap cfg true av t var e)) = (e <- m2 ;; Ok (legacy_wrap (bare_cfg cfg) false false t var e))).
    { intros m1 m2 av t0 v0 ->. destruct m2; cbn [bind]; rewrite ?L1, ?L2; reflexivity. }
    induction t using pytype_ind'; intros var; cbn [se_ty]; rewrite N; destruct (find_ser P (r_class_ser cfg) _); cbv zeta; cbn [bare_cfg r_suppress r_name];
      rewrite ?L1, ?L2, ?C; try reflexivity; apply B; rewrite ?IHt, ?IHt1, ?IHt2; try reflexivity.
    all: try (destruct (is_opt (TUnion l)); [|reflexivity]; destruct l; [reflexivity|]; now rewrite (Forall_inv H)).
    all: assert (Q : forall l, Forall (fun t => forall var, se_ty P cfg true var t = se_ty P (bare_cfg cfg) false var t) l -> forall m,
        (fix go n l := match l with [] => Ok [] | a :: r => e <- se_ty P cfg true (EIdx var n) a ;; es <- go (S n) r ;; Ok (e :: es) end) m l =
        (fix go n l := match l with [] => Ok [] | a :: r => e <- se_ty P (bare_cfg cfg) false (EIdx var n) a ;; es <- go (S n) r ;; Ok (e :: es) end) m l)
      by (clear; intros l F; induction F as [|u r Hu F IH]; intros m; [reflexivity|]; cbn; rewrite Hu, IH; reflexivity).
    all: now rewrite (Q l H).
  Qed.

  Lemma usual_co d nm : negb (r_suppress (se_cfg d nm)) = coerces d.
  Proof. cbn [se_cfg r_suppress]. unfold coerces. now destruct (c_check d). Qed.

  Lemma field_w n d fns reuse conv skip nm c attrs f a l y :
    usual d -> In f (c_fields d) -> f_skip f = false -> f_flatten f = false -> put_by_default d f -> slookup (f_name f) attrs = Some a ->
    se_field P (class_fuel P) (se_cfg d nm) f obj_var = Ok l ->
    mapM (eval P W (run P W K n) (se_ctx P d fns reuse conv skip) [("obj", VObj c attrs)]) l = Ok y ->
    exists v, y = [v] /\ Writes (c_tagging d) reuse conv skip (f_type f) nm (coerces d) a v.
  Proof.
    intros (NS & NO & NU) Hf SK FL SE AT E V. destruct (class_fuel_S P) as [m FU]. rewrite FU in E. cbn [se_field] in E.
    assert (R : (e <- se_ty P (bare_cfg (se_cfg d nm)) false (EAttr obj_var (f_name f)) (f_type f) ;; Ok [e]) = Ok l).
    { rewrite FL in E. destruct SE as [SE|(SE & NC & NL)]; rewrite SE in E.
      - cbn [has_some] in E. rewrite marked_ty in E by exact NS. now destruct (find_ser P (r_class_ser (se_cfg d nm)) (f_type f)).
      - rewrite (find_ser_none P NS) in E by exact NC. cbn [has_some] in E. replace (bare_cfg (se_cfg d nm)) with (se_cfg d nm); [exact E|].
        unfold bare_cfg, se_cfg. cbn. now rewrite NC, NL. }
    clear E. rename R into E. inv_bind E. injection E as <-. cbn [mapM] in V. inv_bind V. injection V as <-.
    eexists. split; [reflexivity|]. rewrite <- (usual_co d nm). change (r_suppress (se_cfg d nm)) with (r_suppress (bare_cfg (se_cfg d nm))).
    refine (writes d NS NO NU (f_type f) _ n (se_ctx P d fns reuse conv skip) (bare_cfg (se_cfg d nm)) nm (conj eq_refl (conj eq_refl (conj eq_refl (fun _ => eq_refl)))) eq_refl eq_refl _ _ _ _ _ _ Hb Hb0).
    - split; [intros u N S1; eapply iter_types_field; eassumption|intros l S1; eapply iter_unions_field; eassumption].
    - cbn [eval obj_var slookup]. change (String.eqb "obj" "obj") with true. cbn [of_option bind getattr]. rewrite AT. reflexivity.
  Qed.

  (** No option that leaves the field out *)
  Definition always (d : classdef) (f : fielddef) : Prop :=
    f_skip_if f = None /\ f_skip_if_false f = false /\ level (f_skip_if_default f) (c_skip_if_default d) = false /\ level (f_skip_if_none f) (c_skip_if_none d) = false.

  (** The entry of a field is what [Writes] says of the annotation and the attribute; of a field with skip options, if it has one. *)
  Theorem C64_to_dict n c d attrs cc ro rc skip x f k a :
    get_class P c = Some d -> c_transparent d = false -> no_vars P d -> usual d -> plain_arg cc ->
    In f (declared d) -> put_by_default d f -> wire_name W d f = Some k -> sole P W d f k -> slookup (f_name f) attrs = Some a ->
    to_dict P W K n (VObj c attrs) cc ro rc skip = Ok x ->
    exists kvs v, x = VMap MDict kvs /\ Writes (c_tagging d) (flag ro (c_reuse d)) (flag rc (c_conv d)) skip (f_type f) true (coerces d) a v /\
      (skey P kvs k = Some v \/ ~ always d f \/ (skip = true /\ v = VNone)).
  Proof.
    intros G TR NV U PA Hf SE WN SO AT H. destruct n as [|[|n]]; [discriminate H| |].
    { exfalso. unfold to_dict in H. rewrite to_obj_eq in H; [|unfold first_ser; now rewrite (proj1 U)|exact PA]. rewrite G in H. discriminate H. }
    assert (FS : first_ser P (VObj c attrs) = None) by (unfold first_ser; now rewrite (proj1 U)).
    destruct (C05_flattened_partial P W K n c d attrs cc ro rc skip x f k G TR NV FS PA H Hf WN SO) as (kvs & v & -> & S0 & C).
    exists kvs, v. split; [reflexivity|]. unfold declared in Hf. apply filter_In in Hf as [Hf F2]. apply andb_prop in F2 as [SK F2]. apply negb_true_iff in F2.
    unfold written in SK. apply andb_prop in SK as [SK _]. apply negb_true_iff in SK.
    split.
    - unfold ser_value in S0. inv_bind S0. inv_bind S0. inv_bind S0. injection S0 as <-.
      destruct (field_w _ _ _ _ _ _ _ _ _ _ _ _ _ U Hf SK F2 SE AT Hb0 Hb1) as (v & -> & Q). exact Q.
    - assert (A : always d f -> drop_rule P W K n d f v = None) by (intros (A1 & A2 & A3 & A4); unfold drop_rule; now rewrite A1, A2, A3, A4).
      destruct (drop_rule P W K n d f v) as [r|]; [right; left; intros X; specialize (A X); discriminate A|].
      destruct skip; cbn [andb] in C; [|now left]. destruct v; cbn [is_vnone] in C; auto.
  Qed.

  (** The tuple form has one element per field that is written. *)
  Theorem C64_to_tuple n c d attrs cc ro rc skip x :
    get_class P c = Some d -> c_transparent d = false -> c_ser_class_var d = false -> usual d -> plain_arg cc ->
    (forall f, In f (filter written (c_fields d)) -> f_flatten f = false /\ put_by_default d f /\ exists a, slookup (f_name f) attrs = Some a) ->
    to_tuple P W K n (VObj c attrs) cc ro rc skip = Ok x ->
    exists l, x = VSeq KTuple l /\
      Forall2 (fun f y => exists a, slookup (f_name f) attrs = Some a /\
        Writes (c_tagging d) (flag ro (c_reuse d)) (flag rc (c_conv d)) skip (f_type f) false (coerces d) a y) (filter written (c_fields d)) l.
  Proof.
    intros G TR CV U PA FF H. destruct n as [|[|n]]; [discriminate H| |]; unfold to_tuple in H;
      (rewrite to_obj_eq in H; [|unfold first_ser; now rewrite (proj1 U)|exact PA]); rewrite G in H; cbn [of_option bind] in H; [discriminate H|].
    match type of H with catch ?m _ = _ => destruct m as [x0| |] eqn:R; try discriminate H end. cbn [catch] in H. injection H as <-.
    cbn [run step] in R. inv_bind R. inv_bind R. cbn [render_se] in Hb. unfold render_to_tuple in Hb. rewrite TR, CV in Hb. inv_bind Hb. rename a1 into fs. inv_bind Hb. injection Hb as <-. rename a1 into es1.
    cbn [run_se_body] in R. inv_bind R. injection R as <-. rename a into ls. exists (concat ls). split; [reflexivity|].
    assert (SF : Forall2 (skips_of d) (c_fields d) fs).
    { unfold sefields in Hb1. inv_bind Hb1. rewrite app_nil_r in Hb1. injection Hb1 as <-. apply mapM_Ok in Hb3. eapply Forall2_impl; [|exact Hb3].
      intros f y _ _ Q. cbv beta in Q. inv_bind Q. inv_bind Q. injection Q as <-. split; auto. }
    apply filter_live in SF. apply mapM_Ok in Hb2. apply mapM_Ok in Hb.
    assert (SUB : forall f, In f (filter written (c_fields d)) -> In f (c_fields d) /\ f_skip f = false).
    { intros f I. apply filter_In in I as [I Q]. split; [exact I|]. unfold written in Q. apply andb_prop in Q as [Q _]. now apply negb_true_iff in Q. }
    revert FF SUB ls es1 Hb2 Hb. induction SF as [|f y lf ly [Sy _] SF IH]; intros FF SUB ls es1 E V; inversion E as [|? e0 ? es2 E1 E2]; subst; inversion V as [|? v0 ? vs V1 V2]; subst; [constructor|].
    cbv beta in E1. inv_bind E1. assert (e0 = a) by (destruct a; [discriminate E1|congruence]). subst e0.
    destruct (FF (fst y) ltac:(now left)) as (F1 & F2 & w & F3). destruct (SUB (fst y) ltac:(now left)) as (S1 & S2).
    destruct (field_w _ _ _ _ _ _ _ _ _ _ _ _ _ U S1 S2 F1 F2 F3 Hb V1) as (v & -> & Q). cbn [concat app]. constructor; [eauto|].
    exact (IH ltac:(intros g I; apply FF; now right) ltac:(intros g I; apply SUB; now right) _ _ E2 V2).
  Qed.

  (** * C18 for members of any type *)

  (** With a union as class argument, the first member that the object fits determines the form; the options are off (see C45). *)
  Theorem C18_member_partial n tg l o ro rc skip y : p_sers P = [] -> own_union P K tg l ->
    to_dict P W K n o (Some (tg, TUnion l)) ro rc skip = Ok y -> Writes tg false false false (TUnion l) true false o y.
  Proof.
    intros NS U H. destruct n as [|n]; [discriminate H|]. unfold to_dict in H. rewrite (to_union_eq P W K n tg l o true ro rc skip U) in H.
    destruct (run P W K n _) as [v| |] eqn:R in H; try discriminate H. injection H as <-. pose proof U as (NO & _ & (N1 & N2 & _) & _).
    destruct (own_cov P K tg l U) as (C1 & C2 & _).
    refine (writes (udef P tg l) NS N1 N2 (TUnion l) (conj C1 C2) n (se_ctx P (udef P tg l) [] false false false) (union_se_cfg (udef P tg l)) true ltac:(repeat split) eq_refl eq_refl
      [("obj", o)] obj_var o _ v eq_refl _ _).
    - rewrite (se_ty_simple P NS _ true true) by (repeat split). unfold SeRT.se_simple. cbv zeta. rewrite opt_arg_none by exact NO. reflexivity.
    - exact R.
  Qed.

  Lemma rendered_ty cfg nm t : p_sers P = [] -> se_plain cfg nm true -> forall var, se_ty P cfg false var t <> NoFuel.
  Proof.
    intros NS Pl. induction t using pytype_ind'; intros var; rewrite (se_ty_simple P NS cfg nm true _ _ Pl); unfold SeRT.se_simple; cbv zeta; try discriminate; auto;
      try (destruct (r_suppress cfg); discriminate); try (specialize (IHt (EVar "v")); destruct (se_ty P cfg false (EVar "v") t); discriminate || congruence).
    - destruct (opt_arg (TUnion l)) as [a|] eqn:O; [|discriminate]. assert (I : In a l) by (destruct l as [|y [|z [|]]]; try discriminate O; destruct z; try discriminate O; cbn in O; destruct (is_none y); [discriminate O|injection O as <-; now left]).
      rewrite Forall_forall in H. specialize (H a I var). destruct (se_ty P cfg false var a); discriminate || congruence.
    - specialize (IHt (EVar "k")). destruct (se_ty P cfg false (EVar "k") t); discriminate || congruence.
    - specialize (IHt1 (EVar "k")). specialize (IHt2 (EVar "v")). destruct (se_ty P cfg false (EVar "k") t1); try discriminate; [|congruence]. destruct (se_ty P cfg false (EVar "v") t2); discriminate || congruence.
    - destruct l as [|t0 l0]; [discriminate|]. remember (t0 :: l0) as l eqn:L. clear L t0 l0.
      assert (X : forall i, mapMi_from (fun n a => se_ty P cfg false (EIdx var n) a) i l <> NoFuel).
      { induction H as [|t l Ht F IH]; intros i; cbn [mapMi_from]; [discriminate|]. specialize (Ht (EIdx var i)). destruct (se_ty P cfg false (EIdx var i) t); try discriminate; [|congruence].
        cbn [bind]. specialize (IH (S i)). destruct (mapMi_from _ (S i) l); discriminate || congruence. }
      specialize (X 0). destruct (mapMi_from _ 0 l); discriminate || congruence.
    - destruct b as [[]|[]|[]| | |]; discriminate.
  Qed.
  (** An object that fits no member is rejected, with a SerdeError. *)
  Theorem C18_unfit_partial n tg l o ro rc skip : p_sers P = [] -> own_union P K tg l -> Forall (fun t => ~ fits o t) l ->
    exists m, to_dict P W K (S (S n)) o (Some (tg, TUnion l)) ro rc skip = Raise (XSerde m).
  Proof.
    intros NS U NF. unfold to_dict. rewrite (to_union_eq P W K (S n) tg l o true ro rc skip U).
    enough (X : exists e, run P W K (S n) (QUnionSe (udef P tg l) (union_func_name P "union_se" l) o false false false) = Raise e) by (destruct X as [e ->]; cbn [catch]; eauto).
    cbn [run step]. rewrite find_union_ok; [|apply U|apply (own_cov P K tg l U); constructor]. cbn [of_option bind].
    rewrite udef_fns. unfold render_union_se. set (cx := se_ctx P (udef P tg l) [] false false false). clear U.
    assert (X : (exists e, mapM (fun t => e <- se_ty P (union_se_cfg (udef P tg l)) false obj_var t ;; _ <- lit (typename P t) ;; Ok (t, e)) l = Raise e) \/
      exists arms, mapM (fun t => e <- se_ty P (union_se_cfg (udef P tg l)) false obj_var t ;; _ <- lit (typename P t) ;; Ok (t, e)) l = Ok arms /\
        run_union_se P W (run P W K n) cx arms o = Raise (XSerde MUnionSe)).
    { clearbody cx. generalize (udef P tg l) as d. intros d. induction NF as [|t l Nt NF IH]; cbn [mapM]; [right; exists []; auto|].
      assert (T := rendered_ty (union_se_cfg d) true t NS ltac:(repeat split) obj_var). destruct (se_ty P (union_se_cfg d) false obj_var t) as [e|e|]; [|left; cbn [bind]; eauto|congruence].
      cbn [bind]. assert (N2 : lit (typename P t) <> NoFuel) by (unfold lit; destruct (lit_ok (typename P t)); discriminate). destruct (lit (typename P t)); cbn [bind]; [|left; eauto|congruence]. destruct IH as [[e' ->]|(arms & -> & R)]; cbn [bind]; [left; eauto|]. right. eexists. split; [reflexivity|].
      cbn [run_union_se]. destruct (is_instance P W o t) eqn:II; [apply fits_iff in II; tauto|exact R]. }
    destruct X as [[e ->]|(arms & -> & R)]; cbn [bind]; [eauto|]. fold cx. rewrite R. eauto.
  Qed.
End Put.

Module PutEx.
  Definition ty := TDict DkDict TString (TList LList (TOpt (TClass "B"))).
  Definition pair := TTuple [TInt; TString; TNone].
  Definition A := cls "A" [fld "m" ty; fld "t" pair; fld "s" (TSet SkSet TInt); fld "e" (TEnum "E")].
  Definition B := cls "B" [fld "n" TInt].
  Definition E1 := {| e_id := "E"; e_name := "E"; e_mixin := None; e_members := [("X", VInt 1); ("Y", VEnum "F" "Z")] |}.
  Definition E2 := {| e_id := "F"; e_name := "F"; e_mixin := None; e_members := [("Z", VStr "z")] |}.
  Definition P := prog [A; B] [E1; E2].
  Definition L := expand P (expand P (expand P (expand P [ty; pair; TSet SkSet TInt; TEnum "E"; TClass "A"; TClass "B"; TInt; TString; TNone]))).
  (** A tuple of objects in place of a list, a tuple without the element for None, a list in place of a set, a member that stands for that of another enum *)
  Definition attrs e : list (string * pyval) :=
    [("m", VMap (MDefault "list") [(VStr "p", VSeq KTuple [VObj "B" [("n", VInt 5)]; VNone])]); ("t", vlist [VInt 1; VStr "x"]); ("s", vlist [VInt 3; VInt 3]); ("e", e)].
  Definition out e s := [("m", dict [("p", vlist [dict [("n", VInt 5)]; VNone])]); ("t", VSeq KTuple [VInt 1; VStr "x"; VNone]); ("s", s); ("e", e)].
  Example writes_dict : to_dict P W0 [] 9 (VObj "A" (attrs (VEnum "E" "Y"))) None None None false = Ok (dict (out (VStr "z") (VSeq KSet [VInt 3]))) /\
    to_dict P W0 [] 9 (VObj "A" (attrs (VInt 1))) None None (Some true) false = Ok (dict (out (VInt 1) (vlist [VInt 3; VInt 3]))).
  Proof. split; vm_compute; reflexivity. Qed.
  Example writes_tuple : to_tuple P W0 [] 9 (VObj "A" (attrs (VEnum "E" "X"))) None None None false =
    Ok (VSeq KTuple [dict [("p", vlist [VSeq KTuple [VInt 5]; VNone])]; VSeq KTuple [VInt 1; VStr "x"; VNone]; VSeq KSet [VInt 3]; VInt 1]).
  Proof. vm_compute. reflexivity. Qed.

  Lemma us : usual P A.
  Proof. repeat split; [apply (names_okb_ok P A L)|apply (unions_okb_ok P A L)]; vm_compute; reflexivity. Qed.
  Lemma lone d' : ~ merged P A d'.
  Proof. remember A as d. intros M. revert Heqd. induction M as [d f c d' I FL CH G|]; [|assumption]. intros ->. repeat (destruct I as [<-|I]; [discriminate FL|]). destruct I. Qed.
  Lemma one f : In f (c_fields A) -> sole P W0 A f (f_name f).
  Proof.
    intros _. split; [|split].
    - cbn. repeat constructor; cbn; intuition discriminate.
    - cbn. repeat constructor; cbn; intuition discriminate.
    - intros d' g M. now elim (lone d').
  Qed.
  Lemma writes_field n f e rc x a : In f (c_fields A) -> slookup (f_name f) (attrs e) = Some a ->
    to_dict P W0 [] n (VObj "A" (attrs e)) None None rc false = Ok x ->
    exists kvs v, x = VMap MDict kvs /\ skey P kvs (f_name f) = Some v /\ Writes P W0 [] (c_tagging A) (flag None (c_reuse A)) (flag rc (c_conv A)) false (f_type f) true (coerces A) a v.
  Proof.
    intros Hf AT H. destruct (C64_to_dict P W0 [] n "A" A (attrs e) None None rc false x f (f_name f) a) as (kvs & v & H1 & H2 & H3); try assumption; try reflexivity.
    - split; [reflexivity|]. intros d' M. now elim (lone d').
    - exact us.
    - right. destruct Hf as [<-|[<-|[<-|[<-|[]]]]]; repeat split.
    - destruct Hf as [<-|[<-|[<-|[<-|[]]]]]; reflexivity.
    - exact (one f Hf).
    - exists kvs, v. split; [exact H1|]. split; [|exact H2]. destruct H3 as [H3|[H3|[H3 _]]]; [exact H3| |discriminate H3].
      elim H3. destruct Hf as [<-|[<-|[<-|[<-|[]]]]]; repeat split; reflexivity.
  Qed.
  (** The member of the other enum is followed to its value. *)
  Example C64_enum_ex n x : to_dict P W0 [] n (VObj "A" (attrs (VEnum "E" "Y"))) None None None false = Ok x ->
    exists kvs, x = VMap MDict kvs /\ skey P kvs "e" = Some (VStr "z").
  Proof.
    intros H. destruct (writes_field n (fld "e" (TEnum "E")) _ _ _ (VEnum "E" "Y") ltac:(cbn; tauto) eq_refl H) as (kvs & v & -> & S1 & Q). exists kvs. split; [reflexivity|].
    replace (VStr "z") with v; [exact S1|]. cbn in Q. inversion Q as [c m y Q1|? ? ? ? N]; subst; [|now elim (N "E" "Y")].
    inversion Q1 as [? ? e z G M N|? ? e z ? G M Q2]; subst; injection G as <-; injection M as <-; [now elim (N "F" "Z")|].
    inversion Q2 as [? ? e z' G M N|? ? e z' ? G M Q3]; subst; injection G as <-; injection M as <-; [reflexivity|inversion Q3].
  Qed.
  (** A list in place of a set is written as a set, or as a list with every element when sets are converted. *)
  Example C64_set_ex n x e : to_dict P W0 [] n (VObj "A" (attrs e)) None None (Some true) false = Ok x ->
    exists kvs, x = VMap MDict kvs /\ skey P kvs "s" = Some (vlist [VInt 3; VInt 3]).
  Proof.
    intros H. destruct (writes_field n (fld "s" (TSet SkSet TInt)) _ _ _ (vlist [VInt 3; VInt 3]) ltac:(cbn; tauto) eq_refl H) as (kvs & v & -> & S1 & Q). exists kvs. split; [reflexivity|].
    rewrite (S1 : skey P kvs "s" = Some v). destruct Q as (l & l' & EL & F & ->). inversion EL; subst; [|discriminate]. inversion F as [|? ? ? ? Q1 F1]; subst. inversion F1 as [|? ? ? ? Q2 F2]; subst. inversion F2; subst.
    cbn in Q1, Q2. now subst.
  Qed.
  Example C64_tuple_ex n x e : to_tuple P W0 [] n (VObj "A" (attrs e)) None None None false = Ok x ->
    exists a b c, x = VSeq KTuple [a; VSeq KTuple [VInt 1; VStr "x"; VNone]; b; c].
  Proof.
    intros H. destruct (C64_to_tuple P W0 [] n "A" A (attrs e) None None None false x) as (l & -> & F); try reflexivity; try exact H.
    - exact us.
    - intros f Hf. cbn in Hf. destruct Hf as [<-|[<-|[<-|[<-|[]]]]]; (split; [reflexivity|]; split; [right; repeat split|eexists; reflexivity]).
    - cbn in F. inversion F as [|? a ? ? _ F1]; subst. inversion F1 as [|? t ? ? T F2]; subst. inversion F2 as [|? b ? ? _ F3]; subst. inversion F3 as [|? c ? ? _ F4]; subst. inversion F4; subst.
      exists a, b, c. do 2 f_equal. f_equal. destruct T as (w & AT & l' & -> & Q). injection AT as <-. f_equal. destruct l' as [|y1 [|y2 [|y3 [|]]]]; cbn in Q; try tauto.
      destruct Q as (Q1 & Q2 & Q3 & _). destruct Q1 as [(w1 & I1 & Q1)|]; [|discriminate]. destruct Q2 as [(w2 & I2 & Q2)|]; [|discriminate].
      assert (y3 = VNone) by (destruct Q3 as [(w3 & _ & Q3)|Q3]; [exact Q3|now injection Q3 as <-]).
      inversion I1; subst; try discriminate. inversion I2; subst; try discriminate. cbn in *. congruence.
  Qed.
End PutEx.

Module PutUnionEx.
  Definition B := cls "B" [fld "n" TInt].
  Definition P := prog [B] [].
  (** A list of lists, a dict, a pair, a class *)
  Definition l := [TList LList (TList LList TInt); TDict DkDict TString (TUnion [TInt; TClass "B"]); TTuple [TInt; TString]; TClass "B"].
  Lemma own tg : own_union P [] tg l.
  Proof. apply own_unionb_ok. destruct tg; vm_compute; reflexivity. Qed.
  Definition obj := VObj "B" [("n", VInt 1)].

  (** Only the first element of a list is looked at, every one of a tuple. *)
  Example fits_first : fits P W0 (vlist [vlist []; VStr "a"]) (TList LList (TList LList TInt)).
  Proof. apply fi_list; [reflexivity|]. intros x r E. injection E as <- _. apply fi_list; [reflexivity|]. discriminate. Qed.
  Ltac no := let X := fresh in intros X; inversion X; subst; try discriminate.
  Example fits_none : Forall (fun t => ~ fits P W0 (VSeq KTuple [VInt 1; VInt 2]) t) l.
  Proof.
    assert (S2 : ~ fits P W0 (VInt 2) TString) by (no; match goal with I : instance_of _ _ _ |- _ => inversion I end).
    repeat constructor; intros X; inversion X; subst; try discriminate.
    - match goal with F : Forall2 _ _ _ |- _ => inversion F as [|? ? ? ? _ F1]; subst; inversion F1; subst end. tauto.
    - match goal with I : instance_of _ _ _ |- _ => inversion I end.
  Qed.
  Example C18_unfit_ex n : exists m, to_dict P W0 [] (S (S n)) (VSeq KTuple [VInt 1; VInt 2]) (Some (TagExternal, TUnion l)) None None false = Raise (XSerde m).
  Proof. apply C18_unfit_partial; [reflexivity|apply own|exact fits_none]. Qed.

  Example writes_members :
    to_dict P W0 [] 9 (VMap MDict [(VStr "k", obj)]) (Some (TagExternal, TUnion l)) None None false = Ok (dict [("k", dict [("B", dict [("n", VInt 1)])])]) /\
    to_dict P W0 [] 9 (VSeq KTuple [VInt 1; VStr "x"]) (Some (TagExternal, TUnion l)) None None false = Ok (VSeq KTuple [VInt 1; VStr "x"]) /\
    to_dict P W0 [] 9 obj (Some (TagExternal, TUnion l)) None None false = Ok (dict [("B", dict [("n", VInt 1)])]).
  Proof. repeat split; vm_compute; reflexivity. Qed.
  (** The pair is written as the third member. *)
  Example C18_member_ex n y : to_dict P W0 [] n (VSeq KTuple [VInt 1; VStr "x"]) (Some (TagExternal, TUnion l)) None None false = Ok y -> y = VSeq KTuple [VInt 1; VStr "x"].
  Proof.
    intros H. apply C18_member_partial in H; [|reflexivity|apply own].
    destruct H as [[H _]|[_ H]]; [inversion H; discriminate|].
    destruct H as [[H _]|[_ H]]; [inversion H; discriminate|].
    destruct H as [[_ H]|[H _]].
    - destruct H as (l' & -> & Q). destruct l' as [|y1 [|y2 [|]]]; cbn in Q; try tauto. destruct Q as (Q1 & Q2 & _).
      destruct Q1 as [(w1 & I1 & ->)|]; [|discriminate]. destruct Q2 as [(w2 & I2 & ->)|]; [|discriminate].
      inversion I1; subst; try discriminate. inversion I2; subst; try discriminate. cbn in *. congruence.
    - elim H. apply fi_tuple. repeat constructor.
  Qed.
End PutUnionEx.

(** A class with serializers of both kinds; the marker on one of its fields counts for the elements too. *)
Module PutMarkEx.
  Definition nums := TList LList TInt.
  Definition marked := with_fns (Some FDefault) None (fld "l" nums).
  Definition A :=
    {| c_id := "A"; c_name := "A"; c_fields := [marked; fld "k" nums]; c_mro := []; c_rename_all := None;
       c_reuse := true; c_conv := false; c_skip_if_default := false; c_skip_if_none := false; c_serializer := Some (fun _ _ => Ok VNone);
       c_deserializer := None; c_tagging := TagExternal; c_check := TcDisabled; c_ser_class_var := false; c_class_vars := [];
       c_transparent := false; c_class_ser := Some (mkClsser [TInt] (fun _ => Ok (VInt 0))); c_class_de := None; c_deny := false; c_tvars := None;
       c_post := fun o => Ok o; c_hashable := false |}.
  Definition P := prog [A] [].
  Definition L := [nums; TClass "A"; TInt].
  Definition attrs := [("l", vlist [VInt 1; VInt 2]); ("k", vlist [VInt 1; VInt 2])].
  Example writes_a : to_dict P W0 [] 9 (VObj "A" attrs) None None None false = Ok (dict [("l", vlist [VInt 1; VInt 2]); ("k", VNone)]).
  Proof. vm_compute. reflexivity. Qed.
  Lemma lone d' : ~ merged P A d'.
  Proof. remember A as d. intros M. revert Heqd. induction M as [d f c d' I FL CH G|]; [|assumption]. intros ->. repeat (destruct I as [<-|I]; [discriminate FL|]). destruct I. Qed.
  Example C64_mark_ex n x : to_dict P W0 [] n (VObj "A" attrs) None None None false = Ok x ->
    exists kvs, x = VMap MDict kvs /\ skey P kvs "l" = Some (vlist [VInt 1; VInt 2]).
  Proof.
    intros H. destruct (C64_to_dict P W0 [] n "A" A attrs None None None false x marked "l" (vlist [VInt 1; VInt 2])) as (kvs & v & H1 & H2 & H3); try assumption; try reflexivity.
    - split; [reflexivity|]. intros d' M. now elim (lone d').
    - repeat split; [apply (names_okb_ok P A L)|apply (unions_okb_ok P A L)]; vm_compute; reflexivity.
    - now left.
    - now left.
    - split; [|split].
      + cbn. repeat constructor; cbn; intuition discriminate.
      + cbn. repeat constructor; cbn; intuition discriminate.
      + intros d' g M. now elim (lone d').
    - exists kvs. split; [exact H1|]. destruct H3 as [H3|[H3|[H3 _]]]; [|elim H3; repeat split; reflexivity|discriminate H3].
      transitivity (Some v); [exact H3|]. destruct H2 as (l & l' & EL & F & ->). inversion EL; subst; try discriminate.
      inversion F as [|? ? ? ? R1 F1]; subst. inversion F1 as [|? ? ? ? R2 F2]; subst. inversion F2; subst. cbn in R1, R2. now subst.
  Qed.
End PutMarkEx.

Print Assumptions C64_to_dict.
Print Assumptions C64_to_tuple.
Print Assumptions C18_member_partial.
Print Assumptions C18_unfit_partial.
