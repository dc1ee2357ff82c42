(** iter_types, iter_unions and iter_literals against the reachability relation of Spec.v, and name
    resolution in generated code. *)
From Coq Require Import String List ZArith Bool Ascii Lia.
From Verif Require Import Base PyVal PyType Program Compat Syntax SeRender DeRender Eval Facts Spec.
Import ListNotations.
Open Scope string_scope.
Open Scope list_scope.

Lemma find_class_id l c d : find_class l c = Some d -> c_id d = c /\ In d l.
Proof.
  induction l as [|x l IH]; simpl; [discriminate|].
  destruct (String.eqb_spec (c_id x) c); intros H.
  - injection H as <-; auto. - destruct (IH H); auto.
Qed.
Lemma get_class_id P c d : get_class P c = Some d -> c_id d = c.
Proof. intros H; now apply find_class_id in H. Qed.
Lemma get_class_self P c d : get_class P c = Some d -> get_class P (c_id d) = Some d.
Proof. intros H. now rewrite (get_class_id _ _ _ H). Qed.

Lemma sub_ty_trans t u v : sub_ty t u -> sub_ty u v -> sub_ty t v.
Proof. intros H K. induction K; eauto using sub_ty. Qed.

Lemma sub_ty_inv u t : sub_ty u t -> u = t \/
  match t with
  | TUnion l | TTuple l => exists a, In a l /\ sub_ty u a
  | TList _ a | TSet _ a | TDeque a | TCounter a | TVarTuple a | TAlias _ a => sub_ty u a
  | TDict _ a b => sub_ty u a \/ sub_ty u b
  | _ => False
  end.
Proof. destruct 1; eauto. Qed.

(** Types that [iter_types] collects. *)
Definition isleaf (t : pytype) : bool :=
  match t with
  | TUnion _ | TList _ _ | TSet _ _ | TDeque _ | TCounter _ | TTuple _ | TVarTuple _ | TDict _ _ _
  | TBare _ | TAlias _ _ => false
  | _ => true
  end.
(** ... and that generated code looks up by name. *)
Definition needed (t : pytype) : bool :=
  match t with TPrimSub _ _ | TEnum _ | TClass _ | TStr _ | TDate _ => true | _ => false end.

Lemma ty_eqb_leaf x t : isleaf x = true -> ty_eqb x t = true -> isleaf t = true.
Proof. destruct x, t; simpl; try discriminate; auto. Qed.
Lemma ty_eqb_needed x t : needed t = true -> ty_eqb x t = true -> x = t.
Proof.
  destruct x, t; simpl; try discriminate; intros _ H;
    try (apply String.eqb_eq in H; congruence).
  apply andb_prop in H as [H1 H2]. apply String.eqb_eq in H1; subst.
  destruct p, p0; simpl in H2; congruence.
Qed.
Lemma ty_mem_leaf t acc : Forall (fun x => isleaf x = true) acc -> ty_mem t acc = true -> isleaf t = true.
Proof.
  unfold ty_mem. intros F H. apply existsb_exists in H as [x [Hx E]].
  rewrite Forall_forall in F. eauto using ty_eqb_leaf.
Qed.
Lemma ty_mem_needed t acc : needed t = true -> ty_mem t acc = true -> In t acc.
Proof.
  unfold ty_mem. intros F H. apply existsb_exists in H as [x [Hx E]].
  apply ty_eqb_needed in E; congruence.
Qed.

Lemma opt_shape l : is_opt (TUnion l) = true -> exists a, l = [a; TNone] /\ is_none a = false.
Proof.
  destruct l as [|a [|b [|]]]; simpl; try discriminate; destruct b; try discriminate.
  intros H. exists a. split; [reflexivity|]. now apply negb_true_iff.
Qed.

Lemma fold_left_ext {A B} (f g : A -> B -> A) l : (forall a b, f a b = g a b) -> forall a, fold_left f l a = fold_left g l a.
Proof. intros H. induction l; simpl; intros; [reflexivity|]. now rewrite H. Qed.

Section Cover.
  Variable P : program.

  (** * iter_types *)
  Definition keeps (rec : string -> list pytype -> list pytype) : Prop :=
    forall c acc, Forall (fun x => isleaf x = true) acc ->
      incl acc (rec c acc) /\ Forall (fun x => isleaf x = true) (rec c acc).

  Lemma it_ty_keeps rec : keeps rec -> forall t acc, Forall (fun x => isleaf x = true) acc ->
    incl acc (it_ty rec t acc) /\ Forall (fun x => isleaf x = true) (it_ty rec t acc).
  Proof.
    intros Hrec.
    assert (Hfold : forall l, Forall (fun t => forall acc, Forall (fun x => isleaf x = true) acc ->
        incl acc (it_ty rec t acc) /\ Forall (fun x => isleaf x = true) (it_ty rec t acc)) l ->
      forall acc, Forall (fun x => isleaf x = true) acc ->
        incl acc (fold_left (fun acc x => it_ty rec x acc) l acc) /\
        Forall (fun x => isleaf x = true) (fold_left (fun acc x => it_ty rec x acc) l acc)).
    { induction 1; simpl; intros acc F.
      - split; [apply incl_refl|assumption].
      - destruct (H acc F) as [I1 F1]. destruct (IHForall _ F1) as [I2 F2].
        split; [eapply incl_tran; eauto|assumption]. }
    assert (Hleaf : forall t acc, isleaf t = true -> Forall (fun x => isleaf x = true) acc ->
       incl acc (t :: acc) /\ Forall (fun x => isleaf x = true) (t :: acc)).
    { intros; split; [apply incl_tl, incl_refl|constructor; auto]. }
    induction t using pytype_ind'; intros acc F; cbn [it_ty];
      (match goal with |- context[if ?b then _ else _] => destruct b; [split; [apply incl_refl|assumption]|] end);
      try (apply Hleaf; [reflexivity|assumption]); auto.
    - destruct (is_opt (TUnion l)) eqn:E.
      + destruct (opt_shape l E) as [a [-> _]]. rewrite Forall_forall in H. apply H; simpl; auto.
      + auto.
    - destruct (IHt1 acc F) as [I1 F1]. destruct (IHt2 _ F1) as [I2 F2].
      split; [eapply incl_tran; eauto|assumption].
    - split; [apply incl_refl|assumption].
  Qed.

  Lemma it_fields_keeps rec d : keeps rec -> forall acc, Forall (fun x => isleaf x = true) acc ->
    incl acc (it_fields rec d acc) /\ Forall (fun x => isleaf x = true) (it_fields rec d acc).
  Proof.
    intros Hrec. unfold it_fields. induction (c_fields d) as [|f l IH]; simpl; intros acc F.
    - split; [apply incl_refl|assumption].
    - destruct (f_skip f); [auto|].
      destruct (it_ty_keeps rec Hrec (f_type f) acc F) as [I1 F1]. destruct (IH _ F1) as [I2 F2].
      split; [eapply incl_tran; eauto|assumption].
  Qed.

  Lemma it_class_keeps n : keeps (it_class P n).
  Proof.
    induction n; intros c acc F; simpl.
    - split; [apply incl_refl|assumption].
    - destruct (get_class P c).
      + assert (F' : Forall (fun x => isleaf x = true) (TClass c :: acc)) by (constructor; auto).
        destruct (it_fields_keeps (it_class P n) c0 IHn _ F') as [I1 F1].
        split; [|exact F1]. intros x Hx; apply I1; now right.
      + split; [apply incl_tl, incl_refl|constructor; auto].
  Qed.

  Lemma it_class_self n c acc : Forall (fun x => isleaf x = true) acc -> In (TClass c) (it_class P (S n) c acc).
  Proof.
    intros F. simpl. destruct (get_class P c); [|now left].
    assert (F' : Forall (fun x => isleaf x = true) (TClass c :: acc)) by (constructor; auto).
    apply (it_fields_keeps (it_class P n) c0 (it_class_keeps n) _ F'). now left.
  Qed.

  Lemma it_ty_covers n u : needed u = true -> forall t acc, Forall (fun x => isleaf x = true) acc ->
    sub_ty u t -> In u (it_ty (it_class P (S n)) t acc).
  Proof.
    intros Hu.
    set (rec := it_class P (S n)).
    assert (Hk : keeps rec) by apply it_class_keeps.
    assert (Hrec : forall c acc, Forall (fun x => isleaf x = true) acc -> In (TClass c) (rec c acc))
      by (intros; now apply it_class_self).
    assert (Hfold : forall l a, In a l ->
      Forall (fun t => forall acc, Forall (fun x => isleaf x = true) acc -> sub_ty u t -> In u (it_ty rec t acc)) l ->
      forall acc, Forall (fun x => isleaf x = true) acc -> sub_ty u a ->
        In u (fold_left (fun acc x => it_ty rec x acc) l acc)).
    { intros l a Ha F. induction F; simpl; [contradiction|]. intros acc Facc Hs.
      assert (Hkeep : forall l acc, Forall (fun x => isleaf x = true) acc -> incl acc (fold_left (fun acc x => it_ty rec x acc) l acc)).
      { clear -Hk. induction l; simpl; intros; [apply incl_refl|].
        destruct (it_ty_keeps rec Hk a acc H) as [I1 F1]. eapply incl_tran; eauto. }
      destruct (it_ty_keeps rec Hk x acc Facc) as [I1 F1].
      destruct Ha as [->|Ha].
      - apply Hkeep; auto.
      - auto. }
    induction t using pytype_ind'; intros acc F S; cbn [it_ty];
      (match goal with |- context[if ty_mem ?t acc then _ else _] =>
         destruct (ty_mem t acc) eqn:E;
         [ pose proof (ty_mem_leaf _ _ F E) as LF; inversion S; subst; try discriminate LF; try discriminate Hu;
           exact (ty_mem_needed _ _ Hu E) | ] end);
      try (inversion S; subst; try discriminate Hu; try (now left); auto; fail).
    all: inversion S; subst; try discriminate Hu; auto.
    - destruct (is_opt (TUnion l)) eqn:E'.
      + destruct (opt_shape l E') as [b [-> _]]. rewrite Forall_forall in H.
        destruct H1 as [<-|[<-|[]]]; [apply H; simpl; auto|]. inversion H3; subst; discriminate Hu.
      + eapply Hfold; eauto.
    - destruct (it_ty_keeps rec Hk t1 acc F) as [I1 F1].
      apply (proj1 (it_ty_keeps rec Hk t2 _ F1)). auto.
    - destruct (it_ty_keeps rec Hk t1 acc F) as [I1 F1]. auto.
    - eapply Hfold; eauto.
  Qed.

  Lemma iter_types_field d f u :
    In f (c_fields d) -> f_skip f = false -> needed u = true -> sub_ty u (f_type f) -> In u (iter_types P d).
  Proof.
    intros Hf Hs Hu Hsub. unfold iter_types, it_fields, class_fuel.
    set (rec := it_class P (S (Datatypes.length (p_classes P)))).
    assert (Hk : keeps rec) by apply it_class_keeps.
    assert (F : Forall (fun x => isleaf x = true) [TClass (c_id d)]) by (repeat constructor).
    revert F. generalize [TClass (c_id d)].
    assert (Hkeep : forall l acc, Forall (fun x => isleaf x = true) acc ->
       incl acc (fold_left (fun acc f => if f_skip f then acc else it_ty rec (f_type f) acc) l acc)).
    { clear -Hk. induction l; simpl; intros; [apply incl_refl|]. destruct (f_skip a); [auto|].
      destruct (it_ty_keeps rec Hk (f_type a) acc H) as [I1 F1]. eapply incl_tran; eauto. }
    induction (c_fields d) as [|g l IH]; simpl; intros acc F; [contradiction|].
    destruct Hf as [->|Hf].
    - rewrite Hs. apply Hkeep.
      + now apply it_ty_keeps. + now apply it_ty_covers.
    - destruct (f_skip g); [auto|]. apply IH; auto. now apply it_ty_keeps.
  Qed.

  (** Everything collected is reachable. *)
  Lemma it_ty_sound (R : pytype -> Prop) rec :
    (forall c acc, R (TClass c) -> Forall R acc -> Forall R (rec c acc)) ->
    forall t acc, (forall u, sub_ty u t -> R u) -> Forall R acc -> Forall R (it_ty rec t acc).
  Proof.
    intros Hrec.
    induction t using pytype_ind'; intros acc HS F; cbn [it_ty];
      (match goal with |- context[if ?b then _ else _] => destruct b; [assumption|] end);
      try (constructor; [apply HS, sub_refl|assumption]); try (apply Hrec; [apply HS, sub_refl|assumption]);
      try (apply IHt; [intros; apply HS; econstructor; eassumption|assumption]); auto.
    - assert (forall acc, Forall R acc -> Forall R (fold_left (fun acc x => it_ty rec x acc) l acc)).
      { assert (HS' : forall a u, In a l -> sub_ty u a -> R u) by (intros; apply HS; econstructor; eauto).
        clear HS acc F. revert HS'. induction H; simpl; intros; [assumption|].
        apply IHForall; eauto. }
      destruct (is_opt (TUnion l)) eqn:E; [|auto].
      destruct (opt_shape l E) as [a [-> _]]. inversion H; subst.
      apply H3; [|assumption]. intros; apply HS. apply sub_union with a; simpl; auto.
    - apply IHt2; [intros; apply HS; now apply sub_dict_v|].
      apply IHt1; [intros; apply HS; now apply sub_dict_k|assumption].
    - assert (HS' : forall a u, In a l -> sub_ty u a -> R u) by (intros; apply HS; econstructor; eauto).
      clear HS. revert acc F HS'. induction H; simpl; intros; [assumption|].
      apply IHForall; eauto.
  Qed.

  Lemma it_class_sound d n : forall c acc,
    reach P d (TClass c) -> Forall (reach P d) acc -> Forall (reach P d) (it_class P n c acc).
  Proof.
    induction n; simpl; intros c acc Hc F; [assumption|].
    destruct (get_class P c) as [d'|] eqn:E; [|constructor; assumption].
    assert (F' : Forall (reach P d) (TClass c :: acc)) by (constructor; auto).
    revert F'. generalize (TClass c :: acc). unfold it_fields.
    assert (HF : forall f, In f (c_fields d') -> f_skip f = false -> forall u, sub_ty u (f_type f) -> reach P d u)
      by (intros; eapply reach_class; eauto).
    revert HF. induction (c_fields d') as [|f l IH]; simpl; intros HF acc' F'; [assumption|].
    destruct (f_skip f) eqn:Ef; [apply IH; eauto|]. apply IH; [eauto|].
    apply it_ty_sound; eauto.
  Qed.

  Lemma iter_types_sound d : Forall (reach P d) (iter_types P d).
  Proof.
    unfold iter_types, it_fields.
    assert (F : Forall (reach P d) [TClass (c_id d)]) by (repeat constructor).
    revert F. generalize [TClass (c_id d)].
    assert (HF : forall f, In f (c_fields d) -> f_skip f = false -> forall u, sub_ty u (f_type f) -> reach P d u)
      by (intros; eapply reach_field; eauto).
    revert HF. induction (c_fields d) as [|f l IH]; simpl; intros HF acc' F'; [assumption|].
    destruct (f_skip f) eqn:Ef; [apply IH; eauto|]. apply IH; [eauto|].
    apply it_ty_sound; [intros; now apply (it_class_sound d (class_fuel P))|eauto|assumption].
  Qed.
  Lemma iter_types_leaf d : Forall (fun x => isleaf x = true) (iter_types P d).
  Proof.
    unfold iter_types. apply it_fields_keeps; [apply it_class_keeps|repeat constructor].
  Qed.

  (** * iter_unions *)
  Lemma iu_ty_covers rec l t : sub_ty (TUnion l) t -> In (TUnion l) (iu_ty rec t).
  Proof.
    induction t using pytype_ind'; intros S; inversion S; subst; cbn [iu_ty]; try (now left); auto.
    - right. apply in_or_app; left. apply in_concat. exists (iu_ty rec a). split; [now apply in_map|].
      rewrite Forall_forall in H. auto.
    - apply in_or_app; auto.
    - apply in_or_app; auto.
    - apply in_concat. exists (iu_ty rec a). split; [now apply in_map|].
      rewrite Forall_forall in H. auto.
  Qed.
  Lemma iter_unions_field d f l :
    In f (c_fields d) -> f_skip f = false -> sub_ty (TUnion l) (f_type f) -> In (TUnion l) (iter_unions P d).
  Proof.
    intros Hf Hs Hsub. unfold iter_unions, iu_fields. apply in_concat.
    eexists. split; [apply in_map_iff; exists f; split; [reflexivity|assumption]|].
    rewrite Hs. now apply iu_ty_covers.
  Qed.

  Lemma iu_ty_sound (R : pytype -> Prop) rec :
    (forall c, R (TClass c) -> Forall R (rec c)) ->
    forall t, (forall u, sub_ty u t -> R u) -> Forall R (iu_ty rec t).
  Proof.
    intros Hrec. induction t using pytype_ind'; intros HS; cbn [iu_ty];
      try (now constructor); try (apply Hrec, HS, sub_refl);
      try (apply IHt; intros; apply HS; econstructor; eassumption).
    - assert (HL : Forall R (concat (map (iu_ty rec) l))).
      { assert (HS' : forall a u, In a l -> sub_ty u a -> R u) by (intros; apply HS; econstructor; eauto).
        clear HS. induction H; simpl; [constructor|]. apply Forall_app. split; [apply H; intros; apply (HS' x); simpl; auto|].
        apply IHForall. intros; apply (HS' a); simpl; auto. }
      constructor; [apply HS; constructor|]. apply Forall_app; split; [assumption|].
      destruct (is_opt (TUnion l)) eqn:E; [|constructor].
      destruct (opt_shape l E) as [a [-> _]]. inversion H; subst.
      apply H2. intros; apply HS. apply sub_union with a; simpl; auto.
    - apply Forall_app; split; [apply IHt1|apply IHt2]; intros; apply HS; eauto using sub_ty.
    - assert (HS' : forall a u, In a l -> sub_ty u a -> R u) by (intros; apply HS; econstructor; eauto).
      clear HS. induction H; simpl; [constructor|]. apply Forall_app. split; [apply H; intros; apply (HS' x); simpl; auto|].
      apply IHForall. intros; apply (HS' a); simpl; auto.
  Qed.

  Lemma iu_fields_sound d d' rec :
    (forall c, reach P d (TClass c) -> Forall (reach P d) (rec c)) ->
    (forall f, In f (c_fields d') -> f_skip f = false -> forall u, sub_ty u (f_type f) -> reach P d u) ->
    Forall (reach P d) (iu_fields rec d').
  Proof.
    intros Hrec HF. unfold iu_fields. induction (c_fields d') as [|f l IH]; simpl; [constructor|].
    apply Forall_app; split.
    - destruct (f_skip f) eqn:E; [constructor|]. apply iu_ty_sound; auto. apply HF; simpl; auto.
    - apply IH. intros; eapply HF; simpl; eauto.
  Qed.
  Lemma iu_class_sound d n : forall st c, reach P d (TClass c) -> Forall (reach P d) (iu_class P n st c).
  Proof.
    induction n; simpl; intros st c Hc; [constructor|].
    destruct (smem c st); [constructor|]. destruct (get_class P c) eqn:E; [|constructor].
    apply iu_fields_sound; [auto|]. intros; eapply reach_class; eauto.
  Qed.
  Lemma iter_unions_sound d : Forall (reach P d) (iter_unions P d).
  Proof.
    apply iu_fields_sound; [intros; now apply iu_class_sound|]. intros; eapply reach_field; eauto.
  Qed.
  Lemma iter_unions_shape_ty rec t :
    (forall c, Forall (fun u => exists l, u = TUnion l) (rec c)) -> Forall (fun u => exists l, u = TUnion l) (iu_ty rec t).
  Proof.
    intros Hrec. induction t using pytype_ind'; cbn [iu_ty]; auto.
    - assert (HL : Forall (fun u => exists l, u = TUnion l) (concat (map (iu_ty rec) l))).
      { induction H; simpl; [constructor|]. apply Forall_app; auto. }
      constructor; [eauto|]. apply Forall_app; split; [assumption|].
      destruct (is_opt (TUnion l)) eqn:E; [|constructor].
      destruct (opt_shape l E) as [a [-> _]]. inversion H; subst; auto.
    - apply Forall_app; auto.
    - induction H; simpl; [constructor|]. apply Forall_app; auto.
  Qed.
  Lemma iter_unions_shape_fields rec d :
    (forall c, Forall (fun u => exists l, u = TUnion l) (rec c)) -> Forall (fun u => exists l, u = TUnion l) (iu_fields rec d).
  Proof.
    intros Hrec. unfold iu_fields. induction (c_fields d); simpl; [constructor|].
    apply Forall_app; split; [|assumption]. destruct (f_skip a); [constructor|]. now apply iter_unions_shape_ty.
  Qed.
  Lemma iter_unions_shape d : Forall (fun u => exists l, u = TUnion l) (iter_unions P d).
  Proof.
    apply iter_unions_shape_fields. generalize (class_fuel P) [c_id d]. induction n; simpl; intros; [constructor|].
    destruct (smem c l); [constructor|]. destruct (get_class P c); [|constructor].
    now apply iter_unions_shape_fields.
  Qed.

  (** * iter_literals *)
  Lemma il_ty_covers rec l t : sub_ty (TLit l) t -> (forall a n, sub_ty (TAlias n a) t -> has_lit a = false) -> In l (il_ty rec t).
  Proof.
    assert (HL : forall t, sub_ty (TLit l) t -> has_lit t = true).
    { induction t0 using pytype_ind'; intros S; inversion S; subst; simpl; auto.
      - apply existsb_exists. exists a. split; [assumption|]. rewrite Forall_forall in H; auto.
      - rewrite IHt0_1; auto. - rewrite IHt0_2; auto using orb_true_r.
      - apply existsb_exists. exists a. split; [assumption|]. rewrite Forall_forall in H; auto. }
    induction t using pytype_ind'; intros S HA; inversion S; subst; cbn [il_ty]; try (now left); auto;
      try (apply IHt; [assumption|]; intros ? ? SS; eapply HA; econstructor; eassumption).
    - apply in_or_app; left. apply in_concat. exists (il_ty rec a). split; [now apply in_map|].
      rewrite Forall_forall in H. apply H; auto. intros; eapply HA. econstructor; eauto.
    - apply in_or_app; left. apply IHt1; auto. intros; eapply HA. econstructor; eauto.
    - apply in_or_app; right. apply IHt2; auto. intros; eapply HA. apply sub_dict_v; eauto.
    - apply in_concat. exists (il_ty rec a). split; [now apply in_map|].
      rewrite Forall_forall in H. apply H; auto. intros; eapply HA. econstructor; eauto.
    - specialize (HA t n (sub_refl _)). apply HL in H1. congruence.
  Qed.
  Lemma iter_literals_field d f l :
    In f (c_fields d) -> f_skip f = false -> sub_ty (TLit l) (f_type f) ->
    (forall a n, sub_ty (TAlias n a) (f_type f) -> has_lit a = false) -> In l (iter_literals P d).
  Proof.
    intros Hf Hs Hsub HA. unfold iter_literals, il_fields. apply in_concat.
    eexists. split; [apply in_map_iff; exists f; split; [reflexivity|assumption]|].
    rewrite Hs. now apply il_ty_covers.
  Qed.
  Lemma il_ty_sound (R : pytype -> Prop) rec :
    (forall c, R (TClass c) -> Forall (fun l => R (TLit l)) (rec c)) ->
    forall t, (forall u, sub_ty u t -> R u) -> Forall (fun l => R (TLit l)) (il_ty rec t).
  Proof.
    intros Hrec. induction t using pytype_ind'; intros HS; cbn [il_ty];
      try (now constructor); try (apply Hrec, HS, sub_refl);
      try (apply IHt; intros; apply HS; econstructor; eassumption).
    - assert (HL : Forall (fun l => R (TLit l)) (concat (map (il_ty rec) l))).
      { assert (HS' : forall a u, In a l -> sub_ty u a -> R u) by (intros; apply HS; econstructor; eauto).
        clear HS. induction H; simpl; [constructor|]. apply Forall_app. split; [apply H; intros; apply (HS' x); simpl; auto|].
        apply IHForall. intros; apply (HS' a); simpl; auto. }
      apply Forall_app; split; [assumption|].
      destruct (is_opt (TUnion l)) eqn:E; [|constructor].
      destruct (opt_shape l E) as [a [-> _]]. inversion H; subst.
      apply H2. intros; apply HS. apply sub_union with a; simpl; auto.
    - apply Forall_app; split; [apply IHt1|apply IHt2]; intros; apply HS; eauto using sub_ty.
    - assert (HS' : forall a u, In a l -> sub_ty u a -> R u) by (intros; apply HS; econstructor; eauto).
      clear HS. induction H; simpl; [constructor|]. apply Forall_app. split; [apply H; intros; apply (HS' x); simpl; auto|].
      apply IHForall. intros; apply (HS' a); simpl; auto.
    - constructor; [apply HS; constructor|constructor].
  Qed.
  Lemma il_fields_sound d d' rec :
    (forall c, reach P d (TClass c) -> Forall (fun l => reach P d (TLit l)) (rec c)) ->
    (forall f, In f (c_fields d') -> f_skip f = false -> forall u, sub_ty u (f_type f) -> reach P d u) ->
    Forall (fun l => reach P d (TLit l)) (il_fields rec d').
  Proof.
    intros Hrec HF. unfold il_fields. induction (c_fields d') as [|f l IH]; simpl; [constructor|].
    apply Forall_app; split.
    - destruct (f_skip f) eqn:E; [constructor|]. apply (il_ty_sound (reach P d)); auto. apply HF; simpl; auto.
    - apply IH. intros; eapply HF; simpl; eauto.
  Qed.
  Lemma iter_literals_sound d : Forall (fun l => reach P d (TLit l)) (iter_literals P d).
  Proof.
    apply il_fields_sound; [|intros; eapply reach_field; eauto].
    generalize (class_fuel P) [c_id d]. induction n; simpl; intros st c Hc; [constructor|].
    destruct (smem c st); [constructor|]. destruct (get_class P c) eqn:E; [|constructor].
    apply il_fields_sound; [auto|]. intros; eapply reach_class; eauto.
  Qed.

  (** * Members of unions *)
  Lemma arm_cases t : union_arm P t ->
    (exists p, t = TPrim p) \/ t = TNone \/ (exists c, t = TClass c /\ lit_ok (typename P t) = true) \/
    (bulk t = true /\ carrier P t /\ lit_ok (typename P t) = true).
  Proof.
    destruct t; cbn [union_arm bulk]; intros U; eauto 6; try (now destruct U as [U _]; discriminate U);
      try (right; right; right; exact U); right; right; left; eauto.
  Qed.
  Lemma carrier_opt l : carrier P (TUnion l) -> exists a, l = [a; TNone] /\ is_none a = false /\ carrier P a.
  Proof.
    cbn [carrier]. destruct l as [|a [|b [|? ?]]]; try contradiction; destruct b; try contradiction. intros [A B]. eauto.
  Qed.
  Lemma carrier_tuple l : carrier P (TTuple l) -> l <> [] /\ Forall (carrier P) l.
  Proof.
    cbn [carrier]. intros [N H]. split; auto. clear N. induction l; constructor; destruct H; auto.
  Qed.
  Lemma carrier_tyok W tg t : carrier P t -> tyok P W tg false t.
  Proof.
    induction t using pytype_ind'; intros K; try contradiction.
    all: try (cbn [carrier tyok] in *; auto; tauto).
    - apply carrier_opt in K as [a [-> [Ha K]]]. cbn [tyok]. rewrite Ha. rewrite Forall_forall in H. apply (H a); auto. now left.
    - apply carrier_tuple in K as [N K]. cbn [tyok]. split; auto. clear N. induction l as [|a l IHl]; [exact I|]. inversion H; inversion K; subst. split; [auto|now apply IHl].
  Qed.
  Lemma carrier_no_alias t : carrier P t -> forall n a, ~ sub_ty (TAlias n a) t.
  Proof.
    induction t using pytype_ind'; intros K m a0 S; apply sub_ty_inv in S; destruct S as [S|S];
      try discriminate S; try contradiction.
    - apply carrier_opt in K as [a [-> [Ha K]]]. destruct S as [a1 [[<-|[<-|[]]] S]].
      + rewrite Forall_forall in H. apply (H a (or_introl eq_refl) K _ _ S).
      + apply sub_ty_inv in S; destruct S as [S|[]]; discriminate S.
    - eapply IHt; eauto.
    - eapply IHt; [apply K|eauto].
    - eapply IHt; eauto.
    - eapply IHt; [apply K|eauto].
    - destruct S; [eapply IHt1|eapply IHt2]; eauto; apply K.
    - apply carrier_tuple in K as [N K]. destruct S as [a [Ha S]]. rewrite Forall_forall in H, K. eapply H; eauto.
    - eapply IHt; eauto.
  Qed.
  (** There is one container, and nothing but None comes after it. *)
  Lemma union_bulk_unique W tg l t t' : union_ok P W tg l -> In t l -> In t' l -> bulk t = true -> bulk t' = true -> t = t'.
  Proof.
    intros (_ & _ & _ & U & _) H H' B B'. apply in_split in H as [l1 [l2 E]]. rewrite E in H'.
    apply in_app_or in H' as [H'|[H'|H']]; auto.
    - apply in_split in H' as [l3 [l4 ->]]. rewrite <- app_assoc in E. cbn [app] in E.
      specialize (U _ _ _ E B' t). rewrite U in B; [discriminate B|]. apply in_or_app. right. now left.
    - specialize (U _ _ _ E B t' H'). subst. discriminate B'.
  Qed.
  Lemma union_bulk_before W tg l l1 t l2 u : union_ok P W tg l -> l = l1 ++ t :: l2 -> t <> TNone -> In u l1 -> bulk u = false.
  Proof.
    intros (_ & _ & _ & U & _) -> N H. destruct (bulk u) eqn:B; auto. apply in_split in H as [l3 [l4 ->]].
    elim N. eapply (U l3 u (l4 ++ t :: l2)); auto.
    - rewrite <- app_assoc. reflexivity.
    - apply in_or_app. right. now left.
  Qed.

  (** * Coverage of an annotation by the scope of a class *)
  Definition Cov (d : classdef) (t : pytype) : Prop :=
    (forall u, needed u = true -> sub_ty u t -> In u (iter_types P d)) /\
    (forall l, sub_ty (TUnion l) t -> In (TUnion l) (iter_unions P d)) /\
    (forall l, sub_ty (TLit l) t -> In l (iter_literals P d)).

  Lemma Cov_sub d t u : Cov d t -> sub_ty u t -> Cov d u.
  Proof. intros [A [B C]] S. repeat split; intros; eauto using sub_ty_trans. Qed.

  Lemma tyok_alias W tg co t : tyok P W tg co t -> forall n a, sub_ty (TAlias n a) t -> has_lit a = false.
  Proof.
    induction t using pytype_ind'; intros T m a0 S; apply sub_ty_inv in S; destruct S as [S|S];
      try discriminate S; try contradiction; cbn [tyok] in T; eauto.
    - destruct S as [a [Ha S]]. rewrite Forall_forall in H.
      assert (U : union_ok P W tg l -> has_lit a0 = false).
      { intros [U _]. rewrite Forall_forall in U. destruct (arm_cases _ (U _ Ha)) as [[p ->]|[->|[[c [-> _]]|[B [K _]]]]];
          try (apply sub_ty_inv in S; destruct S as [S|[]]; discriminate S).
        now apply (carrier_no_alias _ K) in S. }
      destruct l as [|x [|y [|]]]; auto; destruct y; auto. destruct (is_none x) eqn:E; auto.
      destruct Ha as [<-|[<-|[]]]; [eapply (H x); simpl; eauto|].
      apply sub_ty_inv in S; destruct S as [S|[]]; discriminate S.
    - destruct T; eauto.
    - destruct T; eauto.
    - destruct T as [_ [T1 [T2 _]]]. destruct S; eauto.
    - destruct T as [_ T]. destruct S as [a [Ha S]].
      induction H; simpl in *; [contradiction|]. destruct T. destruct Ha as [->|Ha]; eauto.
    - injection S as -> ->. tauto.
    - destruct T; eauto.
  Qed.

  Lemma Cov_field W tg co d f :
    In f (c_fields d) -> f_skip f = false -> tyok P W tg co (f_type f) -> Cov d (f_type f).
  Proof.
    intros Hf Hs T. repeat split; intros.
    - eapply iter_types_field; eauto.
    - eapply iter_unions_field; eauto.
    - eapply iter_literals_field; eauto using tyok_alias.
  Qed.

  (** * Name lookup *)
  Definition scope_ok (d : classdef) : Prop := names_ok P d /\ unions_ok P d /\ literals_ok P d.

  Lemma needed_nominal t : needed t = true -> nominal t = true.
  Proof. destruct t; simpl; auto; discriminate. Qed.

  Lemma isleaf_nominal_or_prim t : isleaf t = true ->
    nominal t = true \/ (exists p, t = TPrim p) \/ exists n p, t = TNewType n p.
  Proof. destruct t; simpl; try discriminate; eauto. Qed.

  (** Folding into globals: the entry found is one with that name. *)
  Lemma globals_lookup (keep : pytype -> bool) (g : pytype -> pytype) l k : forall acc,
    slookup k (fold_left (fun a t => if keep t then a else (typename P t, g t) :: a) l acc) =
    match find (fun t => negb (keep t) && String.eqb (typename P t) k) (rev l) with
    | Some t => Some (g t)
    | None => slookup k acc
    end.
  Proof.
    induction l as [|t l IH]; intros acc; cbn [fold_left rev find]; [reflexivity|].
    rewrite IH.
    assert (HF : forall (p : pytype -> bool) a b, find p (a ++ b) = match find p a with Some x => Some x | None => find p b end).
    { induction a; simpl; intros; [reflexivity|]. now destruct (p a). }
    rewrite HF. destruct (find _ (rev l)); [reflexivity|].
    cbn [find]. destruct (keep t); cbn [negb andb slookup]; [reflexivity|].
    now destruct (String.eqb (typename P t) k).
  Qed.

  Lemma scope_lookup (keep : pytype -> bool) (g : pytype -> pytype) d t :
    (forall p, keep (TPrim p) = true) -> (forall n p, keep (TNewType n p) = true) ->
    names_ok P d -> needed t = true -> keep t = false -> In t (iter_types P d) ->
    slookup (typename P t) (fold_left (fun a t => if keep t then a else (typename P t, g t) :: a) (iter_types P d) []) = Some (g t).
  Proof.
    intros HP HN NO Hn Hk Hin. rewrite globals_lookup.
    destruct (find _ (rev (iter_types P d))) as [u|] eqn:E.
    - apply find_some in E as [Hu E]. apply in_rev in Hu.
      apply andb_prop in E as [E1 E2]. apply String.eqb_eq in E2. apply negb_true_iff in E1.
      pose proof (proj1 (Forall_forall _ _) (iter_types_sound d)) as S.
      pose proof (proj1 (Forall_forall _ _) (iter_types_leaf d)) as L.
      destruct (isleaf_nominal_or_prim u (L _ Hu)) as [N|[[p ->]|[n [p ->]]]].
      + rewrite (NO u t); auto using needed_nominal.
      + rewrite HP in E1; discriminate.
      + rewrite HN in E1; discriminate.
    - exfalso. apply in_rev in Hin. apply (find_none _ _ E) in Hin.
      rewrite Hk, String.eqb_refl in Hin. discriminate.
  Qed.

  Lemma de_lookup d t : names_ok P d -> needed t = true -> In t (iter_types P d) ->
    resolve P (de_globals P d) t = Ok t.
  Proof.
    intros NO Hn Hin.
    assert (E : slookup (typename P t) (de_globals P d) = Some t).
    { unfold de_globals.
      rewrite fold_left_ext with (g := fun (g : list (string * pytype)) (t : pytype) =>
        if is_primitive P t && negb (is_enum t) && negb (is_primitive_subclass P t) then g
        else (typename P t, match t with TGen c _ => TClass c | _ => t end) :: g)
        by (intros a u; destruct (is_primitive P u && _ && _); [reflexivity|]; now destruct u).
      rewrite scope_lookup with (keep := fun t => is_primitive P t && negb (is_enum t) && negb (is_primitive_subclass P t))
        (g := fun t => match t with TGen c _ => TClass c | _ => t end); auto.
      - destruct t; try discriminate; reflexivity.
      - destruct t; try discriminate; simpl; try reflexivity. now destruct (prim_of_mixin P c). }
    destruct t; try discriminate; simpl in E |- *; unfold lookup_name; simpl; now rewrite E.
  Qed.

  Lemma se_lookup d t : names_ok P d -> needed t = true -> is_prim_sub t = false -> In t (iter_types P d) ->
    resolve P (se_globals P d) t = Ok t.
  Proof.
    intros NO Hn Hp Hin.
    assert (E : slookup (typename P t) (se_globals P d) = Some t).
    { unfold se_globals.
      rewrite scope_lookup with (keep := fun t => is_primitive P t && negb (is_enum t)) (g := fun t => t); auto.
      destruct t; try discriminate; simpl; try reflexivity. apply andb_false_r. }
    destruct t; try discriminate; simpl in E |- *; unfold lookup_name; simpl; now rewrite E.
  Qed.

  Lemma find_union_ok d pre l : unions_ok P d -> In (TUnion l) (iter_unions P d) ->
    find_union P d pre (union_func_name P pre l) = Some l.
  Proof.
    intros U Hin. unfold find_union.
    destruct (find _ (rev (iter_unions P d))) as [u|] eqn:E.
    - apply find_some in E as [Hu E]. apply in_rev in Hu. apply String.eqb_eq in E.
      pose proof (proj1 (Forall_forall _ _) (iter_unions_sound d)) as S.
      destruct (proj1 (Forall_forall _ _) (iter_unions_shape d) _ Hu) as [l' ->].
      simpl in *. f_equal. symmetry. eapply U; eauto.
    - exfalso. apply in_rev in Hin. apply (find_none _ _ E) in Hin. simpl in Hin.
      rewrite String.eqb_refl in Hin. discriminate.
  Qed.

  Lemma literal_args_ok cx l : literals_ok P (x_cls cx) -> In l (iter_literals P (x_cls cx)) ->
    literal_args P cx (literal_func_name P l) = Some l.
  Proof.
    intros U Hin. unfold literal_args.
    destruct (find _ (rev (iter_literals P (x_cls cx)))) as [u|] eqn:E.
    - apply find_some in E as [Hu E]. apply in_rev in Hu. apply String.eqb_eq in E.
      pose proof (proj1 (Forall_forall _ _) (iter_literals_sound (x_cls cx))) as S.
      f_equal. symmetry. eapply U; eauto.
    - exfalso. apply in_rev in Hin. apply (find_none _ _ E) in Hin.
      rewrite String.eqb_refl in Hin. discriminate.
  Qed.

End Cover.
