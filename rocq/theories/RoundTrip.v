(** Round trips through the public functions. *)
From Coq Require Import String List ZArith Bool Lia Permutation.
From Verif Require Import Base PyVal PyType Program Compat Syntax SeRender DeRender Eval Formats Facts Mono Spec Cover SeRT DeRT SpecFmt Transport.
Import ListNotations.
Open Scope string_scope.
Open Scope list_scope.

(** * Well-typedness is monotone in its parameters *)
Lemma bare_val_mono P (raw raw' : pyval -> Prop) b v : (forall v, raw v -> raw' v) -> bare_val P raw b v -> bare_val P raw' b v.
Proof.
  intros H B. destruct b; destruct v; try contradiction; destruct k; try contradiction; try (destruct k0); try contradiction;
    cbn [bare_val] in *; auto; try (destruct B as [B1 B2]; split; auto); eapply Forall_impl; eauto.
Qed.

Section WtMono.
  Variables (P : program) (W : world) (sk sk' : bool) (Q Q' : classdef -> Prop) (raw raw' : pyval -> Prop).
  Hypothesis Hsk : sk' = true -> sk = true.
  Hypothesis HQ : forall d, Q d -> Q' d.
  Hypothesis Hraw : forall v, raw v -> raw' v.
  Lemma wt_mono : forall n v, vsize v <= n -> forall t, wt P W sk Q raw v t -> wt P W sk' Q' raw' v t.
  Proof.
    induction n; intros v Hn; [destruct v; simpl in Hn; lia|].
    assert (IH : forall u, vsize u < vsize v -> forall t, wt P W sk Q raw u t -> wt P W sk' Q' raw' u t) by (intros; apply IHn; auto; lia).
    clear IHn. induction t using pytype_ind'; intros HW; inversion HW; subst; try (now constructor); try (econstructor; eauto; fail).
    - inversion H; subst. apply wt_opt_some; auto.
    - eapply wt_union; eauto. rewrite Forall_forall in H. auto.
    - constructor. rewrite Forall_forall in *. intros x Hx. apply IH; auto. now apply vsize_seq.
    - constructor; auto. rewrite Forall_forall in *. intros x Hx. apply IH; auto. now apply vsize_seq.
    - constructor. rewrite Forall_forall in *. intros x Hx. apply IH; auto. now apply vsize_seq.
    - constructor; auto. rewrite Forall_forall in *. intros x Hx. match goal with F : forall x, In x l -> _ |- _ => destruct (F x Hx) end.
      split; auto. apply IH; auto. now apply (vsize_map MCounter l).
    - constructor; auto. rewrite Forall_forall in *. intros x Hx. match goal with F : forall x, In x l -> _ |- _ => destruct (F x Hx) end.
      split; apply IH; auto; now apply (vsize_map m l).
    - constructor. match goal with F : Forall2 _ l ?vs |- _ => assert (IH' : forall u, In u vs -> forall t, wt P W sk Q raw u t -> wt P W sk' Q' raw' u t)
        by (intros; apply IH; auto; now apply vsize_seq); assert (F' : Forall2 (fun t x => wt P W sk Q raw x t) l vs) by exact F end.
      clear -F' IH'. induction F'; constructor; [apply IH'; auto; now left|]. apply IHF'. intros; apply IH'; auto. now right.
    - constructor. rewrite Forall_forall in *. intros x Hx. apply IH; auto. now apply vsize_seq.
    - constructor. eapply bare_val_mono; eauto.
    - econstructor; eauto.
      assert (IH' : forall u, In u attrs -> forall t, wt P W sk Q raw (snd u) t -> wt P W sk' Q' raw' (snd u) t)
        by (intros; apply IH; auto; now apply vsize_obj).
      match goal with F : Forall2 _ (c_fields d) attrs |- _ => revert F end. clear -IH' Hsk. generalize (c_fields d). induction attrs; intros fs F; inversion F; subst; constructor.
      + match goal with A : _ /\ _ |- _ => destruct A as (A1 & A2 & A3 & A4 & A5 & A6 & A7) end.
        split; [exact A1|]. split; [intros; apply IH'; auto; now left|]. split; [exact A3|]. split; [exact A4|]. split; [|split; [exact A6|]].
        * intros. now apply A5; auto.
        * intros Wr Ns. destruct (A7 Wr Ns) as (y & S1 & S2 & S3). exists y. split; [exact S1|]. split; [exact S2|]. intros R. destruct (S3 R) as [D1 D2]. split; auto.
      + apply IHattrs; auto. intros; apply IH'; auto. now right.
  Qed.
End WtMono.

(** Plain data is its own form in a format that changes nothing. *)
Lemma norm_plain : forall n v, vsize v <= n -> plain v = true -> forall y, Norm false false None v y -> y = v.
Proof.
  induction n; intros v Hn Hp y N; [destruct v; simpl in Hn; lia|]. inversion N; subst; auto.
  - discriminate.
  - destruct H1 as [->|]; [|discriminate].
    assert (A : forallb plain l = true) by (destruct H as [->| ->]; exact Hp).
    assert (IH : forall x x', In x l -> Norm false false None x x' -> x' = x).
    { intros x x' Hx Nx. apply (IHn x); auto; [pose proof (vsize_seq k l x Hx); lia|]. rewrite forallb_forall in A. auto. }
    f_equal. clear -H2 IH. induction H2; auto. f_equal; [apply IH; auto; now left|]. apply IHForall2. intros; apply IH; auto. now right.
  - destruct H0 as [->|[? _]]; [|discriminate].
    assert (IH : forall kv kv', In kv l -> nkey false (fst kv) (fst kv') /\ Norm false false None (snd kv) (snd kv') -> kv' = kv).
    { intros [a b] [a' b'] Hx [N1 N2]. cbn [fst snd] in *. cbn [plain] in Hp. rewrite forallb_forall in Hp. specialize (Hp _ Hx). cbv beta iota in Hp. apply andb_prop in Hp as [P1 P2].
      destruct (vsize_map MDict l (a, b) Hx) as [S1 S2]. cbn [fst snd] in *. f_equal.
      - inversion N1; subst; auto; try discriminate.
      - apply (IHn b); auto. lia. }
    f_equal. clear -H IH. induction H; auto. f_equal; [apply IH; auto; now left|]. apply IHForall2. intros; apply IH; auto. now right.
Qed.
Lemma plain_survives v : plain v = true -> survives false false None v.
Proof. intros Hp y N. rewrite (norm_plain (vsize v) v (le_n _) Hp y N). constructor. Qed.

Lemma same_false : forall n v, vsize v <= n -> forall v', same false v v' -> v' = v.
Proof.
  induction n; intros v Hn v' S; [destruct v; simpl in Hn; lia|]. inversion S; subst; auto.
  - f_equal. assert (IH : forall x x', In x l -> same false x x' -> x' = x).
    { intros x x' Hx Sx. apply (IHn x); auto. pose proof (vsize_seq k l x Hx). lia. }
    clear -H IH. induction H; auto. f_equal; [apply IH; auto; now left|]. apply IHForall2. intros; apply IH; auto. now right.
  - destruct H0 as [->|[? _]]; [|discriminate]. f_equal.
    assert (IH : forall x x', In x l -> fst x' = fst x /\ same false (snd x) (snd x') -> x' = x).
    { intros [a b] [a' b'] Hx [E Sx]. cbn [fst snd] in *. subst. f_equal. apply (IHn b); auto. pose proof (proj2 (vsize_map m l (a, b) Hx)). cbn [snd] in *. lia. }
    clear -H IH. induction H; auto. f_equal; [apply IH; auto; now left|]. apply IHForall2. intros; apply IH; auto. now right.
  - f_equal. assert (IH : forall x x', In x l -> fst x' = fst x /\ same false (snd x) (snd x') -> x' = x).
    { intros [a b] [a' b'] Hx [E Sx]. cbn [fst snd] in *. subst. f_equal. apply (IHn b); auto. pose proof (vsize_obj c l (a, b) Hx). cbn [snd] in *. lia. }
    clear -H IH. induction H; auto. f_equal; [apply IH; auto; now left|]. apply IHForall2. intros; apply IH; auto. now right.
Qed.

(** Accepted data is never an instance of a dataclass. *)
Lemma acc_not_obj P W reuse hook : forall n v, vsize v <= n -> forall t nm tg co x,
  tyok P W tg co t -> Acc P W reuse hook nm tg v t x -> forall c l, x <> VObj c l.
Proof.
  induction n; intros v Hn; [destruct v; simpl in Hn; lia|].
  assert (IH : forall u, vsize u < vsize v -> forall t nm tg co x, tyok P W tg co t -> Acc P W reuse hook nm tg u t x -> forall c l, x <> VObj c l)
    by (intros u Hu; apply IHn; lia).
  clear IHn. induction t using pytype_ind'; intros nm tg co x T A c0 l0; try (cbn [tyok] in T; contradiction);
    try (inversion A; subst; try discriminate; fail).
  - apply acc_prim in A as [V ->]. destruct p, v; discriminate.
  - apply acc_sub in A as [u [-> [V [[->| ->] _]]]]; [destruct p, u; discriminate|discriminate].
  - apply acc_new in A as [V ->]. destruct p, v; discriminate.
  - inversion A; subst. auto.
  - destruct (is_opt (TUnion l)) eqn:O.
    + destruct (opt_shape l O) as [a [-> Ha]]. cbn [tyok] in T. rewrite Ha in T. destruct (acc_opt _ _ _ _ _ _ _ _ _ A Ha) as [[_ ->]|[_ A']]; [discriminate|].
      rewrite Forall_forall in H. eapply (H a (or_introl eq_refl)); eauto.
    + inversion A; subst; try (cbn [is_opt] in O; match goal with E : is_none _ = false |- _ => rewrite E in O; discriminate O end); try discriminate.
      * match goal with E : prim_val ?p x = true |- _ => destruct p, x; discriminate end.
      * match goal with B : bulk t = true, A' : Acc _ _ _ _ true _ _ t _ |- _ => destruct t; try discriminate B; inversion A'; subst; discriminate end.
  - cbn [tyok] in T. destruct T as [e [He [_ [Hs _]]]]. inversion A; subst; try discriminate.
    intros ->. match goal with M : enum_member P c _ = _ |- _ => unfold enum_member in M; rewrite He in M; apply slookup_In in M; destruct (Hs _ _ M); discriminate end.
  - inversion A; subst; try discriminate.
    match goal with F : frag_class P W d, E : c_fields d = [f], A' : Acc _ _ _ _ _ _ v0 _ _ |- _ =>
      destruct F as (_ & _ & _ & _ & _ & _ & K7 & _ & _ & _ & _ & _ & _ & K14); rewrite E in K7; apply Forall_inv in K7;
      destruct K7 as [(_ & _ & _ & TY & _) _]; destruct (K14 ltac:(assumption)) as [f' [E' [Hw _]]]; rewrite E in E'; injection E' as <-; rewrite Hw in TY;
      eapply (IH v0); [simpl; lia|exact (TY eq_refl)|exact A'] end.
  - apply acc_lit in A as [y [Hy [-> ->]]]. cbn [tyok] in T. rewrite forallb_forall in T. specialize (T _ Hy). destruct y; discriminate.
  - apply acc_alias in A. eapply IHt; eauto. apply T.
Qed.

Section Classes.
  Variables (P : program) (W : world) (K : list (tagging * pytype)).
  Hypothesis NoSers : p_sers P = [].
  Hypothesis NoDes : p_des P = [].
  Notation run := (run P W K).

  Lemma class_good reuse dn (HF : forall h, dn = Some h -> forall f, h (VFloat f) = Ok (VFloat f)) v c : ClassGood P W K reuse dn v c.
  Proof.
    apply (proj2 (de_both P W K NoDes reuse dn HF _ v (le_n _)) c).
  Qed.

  (** The class argument of to_dict is ignored for instances of dataclasses, unless it is a union. *)
  Definition no_union (cc : option (tagging * pytype)) : Prop :=
    match cc with Some (_, t) => is_union (unalias t) = false | None => True end.

  (** to_dict / to_tuple of a well typed instance *)
  Theorem to_obj_class sk Q raw c d attrs nm ro rc skip cc :
    get_class P c = Some d -> wt P W sk Q raw (VObj c attrs) (TClass c) -> no_union cc ->
    exists x, (forall tg, Wire P W (flag ro (c_reuse d)) (flag rc (c_conv d)) skip nm tg (VObj c attrs) (TClass c) x) /\
      ev (fun n => run n (QToObj (VObj c attrs) nm ro rc skip cc) = Ok x).
  Proof.
    intros Hd HW NU.
    destruct (se_obj P W K NoSers (flag ro (c_reuse d)) (flag rc (c_conv d)) skip sk Q raw c d attrs nm Hd HW) as [x [X1 X2]].
    { intros nv Hnv t. eapply se_good; eauto. }
    exists x. split; auto. specialize (X2 ro rc eq_refl eq_refl). apply ev_S in X2. eapply ev_mono; [exact X2|]. cbv beta.
    intros [|n] Hn; [contradiction|]. cbn [Eval.run step]. unfold to_obj_body.
    assert (FS : first_ser P (VObj c attrs) = None) by (unfold first_ser; now rewrite NoSers).
    rewrite FS, Hd. cbn [of_option bind]. rewrite Hn.
    destruct cc as [[tg t]|]; [|reflexivity]. cbn [option_map fst snd]. cbn [no_union] in NU. destruct (unalias t); try reflexivity. discriminate.
  Qed.

  (** from_dict / from_tuple on accepted data *)
  Theorem from_obj_class c d v nm tg0 tg x ro dn :
    (forall h, dn = Some h -> forall f, h (VFloat f) = Ok (VFloat f)) ->
    get_class P c = Some d -> Acc P W (flag ro (c_reuse d)) (has_some dn) nm tg0 v (TClass c) x ->
    ev (fun n => run n (QFromObj (tg, TClass c) x nm ro dn) = Ok v).
  Proof.
    intros HF Hd A. pose proof (class_good (flag ro (c_reuse d)) dn HF v c d nm tg0 x Hd A) as G.
    apply ev_S in G. eapply ev_mono; [exact G|]. cbv beta. intros [|n] Hn; [contradiction|]. cbn [Eval.run step unalias is_union andb].
    assert (TI : type_is x (TClass c) = false).
    { pose proof (acc_not_obj P W _ _ _ v (le_n _) (TClass c) nm tg0 false x I A) as NO. destruct x as [| | | | | |k0 l0|k0 l0|c0 l0| | | |]; try reflexivity; [destruct k0|destruct k0|]; try reflexivity. elim (NO c0 l0 eq_refl). }
    rewrite TI. unfold from_obj_body. assert (FD : first_de P (TClass c) = None) by (unfold first_de; now rewrite NoDes).
    rewrite FD, Hd. cbn [of_option bind]. rewrite (Hn _ _ _ ro eq_refl). reflexivity.
  Qed.

  (** Serialize, let a format change the data, deserialize *)
  Theorem class_trip ord txt seq sk (Q : classdef -> Prop) c d attrs nm ro rc skip cc ro' dn tg :
    (forall h, dn = Some h -> forall f, h (VFloat f) = Ok (VFloat f)) ->
    (txt = true -> forall z, w_int_of_str W (z_str z) = Some z) ->
    (flag ro (c_reuse d) = true -> flag ro' (c_reuse d) = true /\ txt = false) ->
    (skip = true -> sk = true) ->
    (forall d, Q d -> class_fmt ord txt P (has_some dn) d) ->
    (nm = false -> forall d, Q d -> tuple_class d) ->
    get_class P c = Some d -> wt P W sk Q (survives ord txt seq) (VObj c attrs) (TClass c) -> no_union cc ->
    exists x, ev (fun n => run n (QToObj (VObj c attrs) nm ro rc skip cc) = Ok x) /\
      (forall tg, Wire P W (flag ro (c_reuse d)) (flag rc (c_conv d)) skip nm tg (VObj c attrs) (TClass c) x) /\
      forall y, Norm ord txt seq x y -> exists v', same ord (VObj c attrs) v' /\ ev (fun n => run n (QFromObj (tg, TClass c) y nm ro' dn) = Ok v').
  Proof.
    intros HF HI HR HS HQ HT Hd HW NU. destruct (to_obj_class sk Q _ c d attrs nm ro rc skip cc Hd HW NU) as [x [X1 X2]].
    exists x. split; auto. split; auto. intros y N.
    destruct (transport P W ord txt seq (flag ro (c_reuse d)) (flag rc (c_conv d)) skip sk Q (flag ro' (c_reuse d)) (has_some dn) HI HR HS HQ
                _ (VObj c attrs) (le_n _) (TClass c) nm tg false x y I) as [v' [A S]]; auto.
    { intros s Hs. inversion Hs; subst. exact I. }
    exists v'. split; auto. eapply from_obj_class; eauto.
  Qed.
End Classes.
