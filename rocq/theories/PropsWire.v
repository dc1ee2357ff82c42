(** The form of serialized data and the data accepted on deserialization: C21, C29, C49, C50. *)
From Coq Require Import String List ZArith Bool Lia Permutation.
From Verif Require Import Base PyVal PyType Program Compat Syntax SeRender DeRender Eval Formats Facts Mono Ex Spec Cover SeRT DeRT SpecFmt Transport RoundTrip PropsTrip Decide.
Import ListNotations.
Open Scope string_scope.
Open Scope list_scope.

Lemma F2_det {A B} (R : A -> B -> Prop) l l1 l2 :
  (forall a x y, In a l -> R a x -> R a y -> x = y) -> Forall2 R l l1 -> Forall2 R l l2 -> l1 = l2.
Proof.
  intros H F. revert l2. induction F as [|a x l l1 Hax F IH]; intros l2 G; inversion G; subst; [reflexivity|].
  f_equal; [eapply (H a); eauto; now left|]. apply IH; [|assumption]. intros; eapply H; eauto. now right.
Qed.
Lemma F3_det {A B C} (R : A -> B -> C -> Prop) la lb l1 l2 :
  (forall a b x y, In (a, b) (combine la lb) -> R a b x -> R a b y -> x = y) -> Forall3 R la lb l1 -> Forall3 R la lb l2 -> l1 = l2.
Proof.
  intros H F. revert l2. induction F as [|a b x la lb l1 Hax F IH]; intros l2 G; inversion G; subst; [reflexivity|].
  f_equal; [eapply (H a b); eauto; now left|]. apply IH; [|assumption]. intros; eapply H; eauto; now right.
Qed.
Lemma F2_all {A B} (R : A -> B -> Prop) (S : B -> Prop) l l' :
  (forall a x, In a l -> R a x -> S x) -> Forall2 R l l' -> Forall S l'.
Proof.
  intros H F. induction F as [|a x l l' Hax F IH]; constructor; [eapply (H a); eauto; now left|].
  apply IH. intros; eapply H; eauto; now right.
Qed.
Lemma F3_all {A B C} (R : A -> B -> C -> Prop) (S : C -> Prop) la lb l' :
  (forall a b x, In (a, b) (combine la lb) -> R a b x -> S x) -> Forall3 R la lb l' -> Forall S l'.
Proof.
  intros H F. induction F as [|a b x la lb l' Hax F IH]; constructor; [eapply (H a b); eauto; now left|].
  apply IH. intros; eapply H; eauto; now right.
Qed.
Lemma F2_combine {A B} (R : A -> B -> Prop) la lb a b : Forall2 R la lb -> In (a, b) (combine la lb) -> R a b.
Proof.
  induction 1 as [|x y la lb Hxy F IH]; simpl; [contradiction|]. intros [E|H]; [now injection E as <- <-|auto].
Qed.

(** * The serialized form is unique *)
Section Det.
  Variables (P : program) (W : world) (reuse conv skip sk : bool) (Q : classdef -> Prop) (raw : pyval -> Prop).
  Notation WIRE := (Wire P W reuse conv skip).
  Notation WT := (wt P W sk Q raw).

  Lemma wr_union nm tg l v y : is_opt (TUnion l) = false -> WIRE nm tg v (TUnion l) y ->
    (exists t, In t l /\ is_class_ty t = false /\ WIRE true tg v t y) \/
    (exists c x, In (TClass c) l /\ WIRE true tg v (TClass c) x /\ tagged tg (typename P (TClass c)) x y).
  Proof.
    intros O X. inversion X; subst; try (cbn [is_opt] in O; match goal with E : is_none _ = false |- _ => rewrite E in O; discriminate O end);
      [left|right]; eauto 10.
  Qed.
  Lemma wr_opt nm tg a v y : is_none a = false -> WIRE nm tg v (TUnion [a; TNone]) y ->
    v = VNone /\ y = VNone \/ v <> VNone /\ WIRE nm tg v a y.
  Proof. intros Ha X. inversion X; subst; auto; cbn [is_opt] in *; rewrite Ha in *; discriminate. Qed.
  Lemma wr_wt_opt a v : is_none a = false -> WT v (TUnion [a; TNone]) -> v = VNone \/ v <> VNone /\ WT v a.
  Proof. intros Ha X. inversion X; subst; auto; cbn [is_opt] in *; rewrite Ha in *; discriminate. Qed.
  Lemma wr_class nm tg c v x : WIRE nm tg v (TClass c) x -> exists l, v = VObj c l.
  Proof. intros H; inversion H; subst; eauto. Qed.
  (** a union arm that is no class is written unchanged unless it is a container *)
  Lemma wr_arm nm tg v t x : union_arm P t -> is_class_ty t = false -> WIRE nm tg v t x ->
    x = v /\ scalar_val v = true \/ bulk t = true /\ carrier P t /\ ((exists s l, v = VSeq s l) \/ (exists m l, v = VMap m l)).
  Proof.
    intros U C X. destruct (arm_cases P t U) as [[p ->]|[->|[[c [-> _]]|[B [KT _]]]]]; [| |discriminate|].
    - inversion X; subst. left. split; auto. match goal with E : prim_val ?p ?v = true |- _ => destruct p, v; try discriminate E; reflexivity end.
    - inversion X; subst. now left.
    - right. repeat split; auto. destruct t; try discriminate B; inversion X; subst; eauto.
  Qed.
  Lemma wt_arm_bulk tg l t v : union_ok P W tg l -> is_opt (TUnion l) = false -> WT v (TUnion l) -> In t l -> bulk t = true ->
    (exists s l, v = VSeq s l) \/ (exists m l, v = VMap m l) -> WT v t.
  Proof.
    intros U O HW Ht B HO. apply wt_union_inv in HW as [u [Hu HW]]; auto. pose proof U as (UA & _). rewrite Forall_forall in UA.
    destruct (arm_cases P u (UA u Hu)) as [[p ->]|[->|[[c [-> _]]|[B' _]]]].
    - exfalso. destruct HO as [[s [vs ->]]|[m [vs ->]]]; inversion HW; subst; destruct p; discriminate.
    - exfalso. destruct HO as [[s [vs ->]]|[m [vs ->]]]; inversion HW.
    - exfalso. destruct HO as [[s [vs ->]]|[m [vs ->]]]; inversion HW.
    - now rewrite (union_bulk_unique P W tg l t u U Ht Hu B B').
  Qed.
  Lemma wt_arm_class tg l c vs : union_ok P W tg l -> is_opt (TUnion l) = false -> WT (VObj c vs) (TUnion l) -> WT (VObj c vs) (TClass c).
  Proof.
    intros U O HW. apply wt_union_inv in HW as [u [Hu HW]]; auto. pose proof U as (UA & _). rewrite Forall_forall in UA.
    destruct (arm_cases P u (UA u Hu)) as [[p ->]|[->|[[c' [-> _]]|[B' _]]]].
    - exfalso. inversion HW; subst; destruct p; discriminate.
    - inversion HW.
    - inversion HW; subst. exact HW.
    - eapply wt_bulk in HW; [|exact B']. destruct HW as [[s [l' E]]|[m [l' E]]]; discriminate E.
  Qed.
  Lemma tagged_det tg n x y y' : tagged tg n x y -> tagged tg n x y' -> y = y'.
  Proof.
    destruct tg; cbn [tagged]; try congruence. intros [l [-> ->]] [l' [E ->]]. now injection E as <-.
  Qed.

  (** Classes are written with the options of the class, fields with the type of the field. *)
  Lemma wr_obj nm tg c attrs d x : get_class P c = Some d -> WIRE nm tg (VObj c attrs) (TClass c) x ->
    (c_transparent d = false /\ nm = true /\ exists outs, x = VMap MDict (concat outs) /\
      Forall3 (fun f nv out =>
          (written f = false /\ out = []) \/
          (written f = true /\ f_flatten f = false /\ exists k x, wire_name W d f = Some k /\
             (f_serializer f = None /\ WIRE true (c_tagging d) (snd nv) (f_type f) x \/ coded f (snd nv) x) /\
             match drops P d f x with
             | Some r => exists b, r = Ok b /\ out = if (b : bool) then [] else [(VStr k, x)]
             | None => skip = true /\ x = VNone /\ out = [] \/ (skip = false \/ x <> VNone) /\ out = [(VStr k, x)]
             end) \/
          (f_flatten f = true /\ exists d' c' attrs' l, kid P f = Some d' /\ snd nv = VObj c' attrs' /\
             Forall3 (fun g nv' kv => exists k x, wire_name W d' g = Some k /\ WIRE true (c_tagging d) (snd nv') (f_type g) x /\
                kv = (VStr k, x)) (c_fields d') attrs' l /\
             (skip = true /\ map snd l = [VNone] /\ out = [] \/ (skip = false \/ map snd l <> [VNone]) /\ out = l)))
          (c_fields d) attrs outs) \/
    (c_transparent d = false /\ nm = false /\ exists outs, x = VSeq KTuple (concat outs) /\
      Forall3 (fun f nv out =>
          (written f = false /\ out = []) \/
          (written f = true /\ f_flatten f = false /\ exists x,
             (f_serializer f = None /\ WIRE false (c_tagging d) (snd nv) (f_type f) x \/ coded f (snd nv) x) /\ out = [x]) \/
          (f_flatten f = true /\ exists d' c' attrs', kid P f = Some d' /\ snd nv = VObj c' attrs' /\
             Forall3 (fun g nv' x => WIRE false (c_tagging d) (snd nv') (f_type g) x) (c_fields d') attrs' out))
          (c_fields d) attrs outs) \/
    (c_transparent d = true /\ exists f v, c_fields d = [f] /\ attrs = [(f_name f, v)] /\
      WIRE nm (c_tagging d) v (f_type f) x).
  Proof.
    intros Hd X. inversion X; subst; match goal with E : get_class P c = Some _ |- _ => rewrite Hd in E; injection E as <- end.
    - left. eauto. - right; left. eauto. - right; right. eauto 10.
  Qed.

  Lemma frag_tyok d f : frag_class P W d -> In f (c_fields d) -> written f = true -> tyok P W (c_tagging d) (coerces d) (f_type f).
  Proof.
    intros F Hf Hw. destruct F as (_ & _ & _ & _ & _ & _ & K7 & _). rewrite Forall_forall in K7.
    destruct (K7 f Hf) as [(_ & _ & _ & T & _) _]. apply T. now rewrite Hw.
  Qed.
  (** the same for the fields of a flattened field *)
  Lemma frag_kid d f v d' c' attrs' : frag_class P W d -> In f (c_fields d) -> kid P f = Some d' ->
    (written f = true -> WT v (f_type f)) -> v = VObj c' attrs' ->
    written f = true /\ forall g nv', In (g, nv') (combine (c_fields d') attrs') ->
      tyok P W (c_tagging d) (coerces d) (f_type g) /\ WT (snd nv') (f_type g) /\ vsize (snd nv') < vsize v.
  Proof.
    intros F Hf Hk Wv ->. destruct F as (_ & _ & _ & _ & _ & _ & K7 & _). rewrite Forall_forall in K7.
    destruct (kid_get _ _ _ Hk) as [Hfl _]. destruct (K7 f Hf) as [_ FL]. destruct (FL Hfl) as (c & d1 & G1 & G2 & _ & Hw & _ & _ & _ & _ & _ & _ & _ & KF & _).
    assert (d1 = d') by (unfold kid in Hk; rewrite Hfl, G1 in Hk; congruence). subst d1. split; auto.
    specialize (Wv Hw). rewrite G1 in Wv. intros g nv' Hg. assert (c' = c) by (inversion Wv; auto). subst c'.
    apply wt_obj_inv in Wv as [d2 [Hd2 [_ [_ [FF _]]]]]. rewrite G2 in Hd2. injection Hd2 as <-.
    rewrite Forall_forall in KF. destruct (KF g (in_combine_l _ _ _ _ Hg)) as (_ & _ & Wg & _ & _ & _ & _ & TY & _).
    split; auto. split.
    - apply (F2_combine _ _ _ _ _ FF) in Hg. destruct Hg as [_ [Hg _]]. apply Hg. now rewrite Wg.
    - apply vsize_obj. eapply in_combine_r; eauto.
  Qed.

  Theorem wire_det : forall n v, vsize v <= n -> forall t nm tg co x y, tyok P W tg co t -> WT v t ->
    WIRE nm tg v t x -> WIRE nm tg v t y -> x = y.
  Proof.
    induction n; intros v Hn; [destruct v; simpl in Hn; lia|].
    assert (IH : forall u, vsize u < vsize v -> forall t nm tg co x y, tyok P W tg co t -> WT u t ->
      WIRE nm tg u t x -> WIRE nm tg u t y -> x = y) by (intros u Hu; apply IHn; lia).
    clear IHn. induction t using pytype_ind'; intros nm tg co x y T Wv X Y; try (cbn [tyok] in T; contradiction);
      try (inversion X; subst; inversion Y; subst; congruence).
    - destruct (is_opt (TUnion l)) eqn:O.
      + destruct (opt_shape l O) as [a [-> Ha]]. cbn [tyok] in T. rewrite Ha in T.
        apply wr_opt in X; [|exact Ha]. apply wr_opt in Y; [|exact Ha].
        destruct X as [[Ev Ex]|[N X]], Y as [[Ev' Ey]|[N' Y]]; try congruence.
        apply wr_wt_opt in Wv; [|exact Ha]. destruct Wv as [Wv|[_ Wv]]; [congruence|].
        rewrite Forall_forall in H. eapply (H a (or_introl eq_refl)); eauto.
      + assert (U : union_ok P W tg l) by (apply tyok_union with (co := co); auto).
        pose proof U as U'. destruct U' as [UA [UC _]]. rewrite Forall_forall in UA.
        apply wr_union in X as [[t [Ht [Hc X]]]|[c [x' [Hc [X Tx]]]]]; auto;
        apply wr_union in Y as [[t' [Ht' [Hc' Y]]]|[c' [y' [Hc' [Y Ty]]]]]; auto.
        * destruct (wr_arm _ _ _ _ _ (UA _ Ht) Hc X) as [[-> SX]|[BX [KX OX]]], (wr_arm _ _ _ _ _ (UA _ Ht') Hc' Y) as [[-> SY]|[BY [KY OY]]]; auto.
          -- destruct OY as [[s [vs ->]]|[m [vs ->]]]; discriminate SX.
          -- destruct OX as [[s [vs ->]]|[m [vs ->]]]; discriminate SY.
          -- rewrite (union_bulk_unique P W tg l t' t U Ht' Ht BY BX) in Y. rewrite Forall_forall in H.
             apply (H t Ht true tg false x y); auto; [now apply carrier_tyok|]. eapply wt_arm_bulk; eauto.
        * apply wr_class in Y as [l' ->]. destruct (wr_arm _ _ _ _ _ (UA _ Ht) Hc X) as [[_ S]|[_ [_ [[s [vs E]]|[m [vs E]]]]]]; discriminate.
        * apply wr_class in X as [l' ->]. destruct (wr_arm _ _ _ _ _ (UA _ Ht') Hc' Y) as [[_ S]|[_ [_ [[s [vs E]]|[m [vs E]]]]]]; discriminate.
        * destruct (wr_class _ _ _ _ _ X) as [l1 E1]. destruct (wr_class _ _ _ _ _ Y) as [l2 E2].
          rewrite E1 in E2. injection E2 as <- <-.
          assert (x' = y') as ->; [|eapply tagged_det; eauto].
          subst v. eapply wt_arm_class in Wv; eauto.
          rewrite Forall_forall in H. apply (H _ Hc true tg co x' y'); auto; exact I.
    - inversion X; subst. inversion Y; subst. inversion Wv; subst. f_equal. eapply F2_det; eauto.
      cbv beta. intros a x y Ha. rewrite Forall_forall in *. eapply IH; eauto. now apply vsize_seq.
    - inversion X; subst. inversion Y; subst. inversion Wv; subst. f_equal. eapply F2_det; eauto.
      cbv beta. intros a x y Ha. rewrite Forall_forall in *. eapply IH; eauto; [now apply vsize_seq|apply T].
    - inversion X; subst. inversion Y; subst. inversion Wv; subst. f_equal. eapply F2_det; eauto.
      cbv beta. intros a x y Ha. rewrite Forall_forall in *. eapply IH; eauto. now apply vsize_seq.
    - inversion X; subst. inversion Y; subst. inversion Wv; subst. f_equal. eapply F2_det; eauto.
      cbv beta. intros [a1 a2] [x1 x2] [y1 y2] Ha [R1 R2] [S1 S2]. cbn [fst snd] in *. subst. f_equal. rewrite Forall_forall in *.
      destruct (vsize_map MCounter l _ Ha) as [V1 V2]. cbn [fst snd] in *.
      match goal with F : forall x, In x l -> _ |- _ => destruct (F _ Ha) as [Wk _] end. cbn [fst] in Wk.
      apply (IH a1 V1 t nm tg co); auto; cbn [tyok] in T; tauto.
    - inversion X; subst. inversion Y; subst. inversion Wv; subst. f_equal. cbn [tyok] in T. eapply F2_det; eauto.
      cbv beta. intros [a1 a2] [x1 x2] [y1 y2] Ha [R1 R2] [S1 S2]. cbn [fst snd] in *. rewrite Forall_forall in *.
      destruct (vsize_map m l _ Ha) as [V1 V2]. cbn [fst snd] in *.
      match goal with F : forall x, In x l -> _ |- _ => destruct (F _ Ha) as [Wk Wx] end. cbn [fst snd] in Wk, Wx.
      f_equal; [eapply (IH a1)|eapply (IH a2)]; eauto; apply T.
    - inversion X; subst. inversion Y; subst. inversion Wv; subst. f_equal. cbn [tyok] in T. destruct T as [_ T].
      eapply F3_det; eauto. cbv beta. intros a b x y Hab. 
      assert (Ta : tyok P W tg co a).
      { apply in_combine_l in Hab. clear -T Hab. induction l as [|z l IHl]; [contradiction|]. destruct T as [T1 T2].
        destruct Hab as [->|Hab]; auto. }
      eapply (IH b); eauto; [apply vsize_seq; eapply in_combine_r; eauto|].
      match goal with F : Forall2 (fun t x => WT x t) _ _ |- _ => exact (F2_combine _ _ _ _ _ F Hab) end.
    - inversion X; subst. inversion Y; subst. inversion Wv; subst. f_equal. eapply F2_det; eauto.
      cbv beta. intros a x y Ha. rewrite Forall_forall in *. eapply IH; eauto. now apply vsize_seq.
    - destruct (wr_class _ _ _ _ _ X) as [attrs ->].
      apply wt_obj_inv in Wv as [d [Hd [F [_ [FF _]]]]].
      assert (FT : forall f nv, In (f, nv) (combine (c_fields d) attrs) -> written f = true ->
         tyok P W (c_tagging d) (coerces d) (f_type f) /\ WT (snd nv) (f_type f) /\ vsize (snd nv) < vsize (VObj c attrs)).
      { intros f nv Hc Hw. split; [|split].
        - apply frag_tyok; auto. eapply in_combine_l; eauto.
        - apply (F2_combine _ _ _ _ _ FF) in Hc. destruct Hc as [_ [Hc _]]. apply Hc. now rewrite Hw.
        - apply vsize_obj. eapply in_combine_r; eauto. }
      destruct (wr_obj _ _ _ _ _ _ Hd X) as [[Tr [-> [ox [-> FX]]]]|[[Tr [-> [ox [-> FX]]]]|[Tr [f [v [Ef [-> X']]]]]]];
      destruct (wr_obj _ _ _ _ _ _ Hd Y) as [[Tr' [E [oy [-> FY]]]]|[[Tr' [E [oy [-> FY]]]]|[Tr' [f' [v' [Ef' [E Y']]]]]]];
        try congruence.
      + do 2 f_equal. eapply F3_det; eauto. cbv beta. intros f nv o1 o2 Hc RX RY.
        assert (KF : forall d' c' attrs', kid P f = Some d' -> snd nv = VObj c' attrs' -> written f = true /\ forall g nv', In (g, nv') (combine (c_fields d') attrs') ->
          tyok P W (c_tagging d) (coerces d) (f_type g) /\ WT (snd nv') (f_type g) /\ vsize (snd nv') < vsize (VObj c attrs)).
        { intros d' c' attrs' Hk Ev. destruct (frag_kid d f (snd nv) d' c' attrs' F (in_combine_l _ _ _ _ Hc) Hk (fun Hw => proj1 (proj2 (FT f nv Hc Hw))) Ev) as [Hw KF].
          split; auto. intros g nv' Hg. destruct (KF g nv' Hg) as [Q1 [Q2 Q3]]. destruct (FT f nv Hc Hw) as [_ [_ Q4]]. repeat split; auto; lia. }
        destruct RX as [[Hw ->]|[[Hw [Hfl [k [x [Hk [Wx Hx]]]]]]|[Hfl [d1 [c1 [at1 [l1 [Hk [Ev [Wx Hx]]]]]]]]]];
        destruct RY as [[Hw' ->]|[[Hw' [Hfl' [k' [y [Hk' [Wy Hy]]]]]]|[Hfl' [d2 [c2 [at2 [l2 [Hk' [Ev' [Wy Hy]]]]]]]]]]; try congruence;
        try (destruct (KF _ _ _ Hk Ev); congruence); try (destruct (KF _ _ _ Hk' Ev'); congruence).
        2:{ assert (d2 = d1) by congruence. assert (at2 = at1) by congruence. subst d2 at2. destruct (KF _ _ _ Hk Ev) as [_ KF'].
          assert (l1 = l2) as ->.
          { eapply F3_det; [|exact Wx|exact Wy]. cbv beta. intros g nv' kv kv' Hg [k [x [E1 [W1 ->]]]] [k' [x' [E2 [W2 ->]]]]. destruct (KF' g nv' Hg) as [Q1 [Q2 Q3]].
            rewrite E1 in E2. injection E2 as <-. f_equal. eapply (IH (snd nv')); eauto. }
          destruct Hx as [[S1 [S2 ->]]|[S1 ->]], Hy as [[S3 [S4 ->]]|[S3 ->]]; try reflexivity;
          [destruct S3 as [S3|S3]|destruct S1 as [S1|S1]]; congruence. }
        destruct (FT f nv Hc Hw) as [T1 [T2 T3]].
        assert (x = y) as ->.
        { destruct Wx as [[Nx Wx]|[gx [Gx Gx']]], Wy as [[Ny Wy]|[gy [Gy Gy']]]; try congruence. eapply (IH (snd nv)); eauto. }
        rewrite Hk in Hk'. injection Hk' as <-.
        destruct (drops P d f y) as [r|].
        { destruct Hx as [b [-> ->]], Hy as [b' [E' ->]]. now injection E' as <-. }
        destruct Hx as [[S1 [S2 ->]]|[S1 ->]], Hy as [[S3 [S4 ->]]|[S3 ->]]; try reflexivity;
          [destruct S3 as [S3|S3]|destruct S1 as [S1|S1]]; congruence.
      + do 2 f_equal. eapply F3_det; eauto. cbv beta. intros f nv o1 o2 Hc RX RY.
        assert (KF : forall d' c' attrs', kid P f = Some d' -> snd nv = VObj c' attrs' -> written f = true /\ forall g nv', In (g, nv') (combine (c_fields d') attrs') ->
          tyok P W (c_tagging d) (coerces d) (f_type g) /\ WT (snd nv') (f_type g) /\ vsize (snd nv') < vsize (VObj c attrs)).
        { intros d' c' attrs' Hk Ev. destruct (frag_kid d f (snd nv) d' c' attrs' F (in_combine_l _ _ _ _ Hc) Hk (fun Hw => proj1 (proj2 (FT f nv Hc Hw))) Ev) as [Hw KF].
          split; auto. intros g nv' Hg. destruct (KF g nv' Hg) as [Q1 [Q2 Q3]]. destruct (FT f nv Hc Hw) as [_ [_ Q4]]. repeat split; auto; lia. }
        destruct RX as [[Hw ->]|[[Hw [Hfl [x [Wx ->]]]]|[Hfl [d1 [c1 [at1 [Hk [Ev Wx]]]]]]]];
        destruct RY as [[Hw' ->]|[[Hw' [Hfl' [y [Wy ->]]]]|[Hfl' [d2 [c2 [at2 [Hk' [Ev' Wy]]]]]]]]; try congruence;
        try (destruct (KF _ _ _ Hk Ev); congruence); try (destruct (KF _ _ _ Hk' Ev'); congruence).
        2:{ assert (d2 = d1) by congruence. assert (at2 = at1) by congruence. subst d2 at2. destruct (KF _ _ _ Hk Ev) as [_ KF'].
          eapply F3_det; [|exact Wx|exact Wy]. cbv beta. intros g nv' kv kv' Hg W1 W2. destruct (KF' g nv' Hg) as [Q1 [Q2 Q3]]. eapply (IH (snd nv')); eauto. }
        destruct (FT f nv Hc Hw) as [T1 [T2 T3]].
        assert (x = y) as ->.
        { destruct Wx as [[Nx Wx]|[gx [Gx Gx']]], Wy as [[Ny Wy]|[gy [Gy Gy']]]; try congruence. eapply (IH (snd nv)); eauto. } reflexivity.
      + rewrite Ef in Ef'. injection Ef' as <-. injection E as <-.
        assert (Hw : written f = true).
        { destruct F as (_ & _ & _ & _ & _ & _ & _ & _ & _ & _ & _ & _ & _ & K14). destruct (K14 Tr) as [f' [Ef' [Hw _]]]. congruence. }
        destruct (FT f (f_name f, v)) as [T1 [T2 T3]]; auto; [rewrite Ef; now left|]. eapply (IH v); eauto.
    - inversion X; subst. inversion Y; subst. inversion Wv; subst. eapply IHt; eauto. apply T.
  Qed.
End Det.

(** * C29: plain data *)

(** None, booleans, numbers, text (of subclasses too), lists, tuples and dicts of such values *)
Fixpoint simple (v : pyval) : bool :=
  match v with
  | VNone | VBool _ | VInt _ | VFloat _ | VStr _ => true
  | VSub _ u => simple u
  | VSeq (KList | KTuple) l => forallb simple l
  | VMap MDict l => forallb (fun kv => match kv with (a, b) => simple a && simple b end) l
  | _ => false
  end.
Lemma plain_simple : forall n v, vsize v <= n -> plain v = true -> simple v = true.
Proof.
  induction n; intros v Hn Hp; [destruct v; simpl in Hn; lia|]. destruct v; try discriminate; try reflexivity.
  - assert (A : forallb plain l = true) by (destruct k; try discriminate; exact Hp).
    assert (B : forallb simple l = true).
    { rewrite forallb_forall in *. intros x Hx. apply IHn; auto. pose proof (vsize_seq k l x Hx). lia. }
    destruct k; try discriminate; exact B.
  - destruct k; try discriminate. cbn [plain] in Hp. cbn [simple]. rewrite forallb_forall in *. intros [a b] Hx. specialize (Hp _ Hx). cbv beta iota in Hp |- *.
    apply andb_true_iff in Hp as [Ha Hb]. destruct (vsize_map MDict l _ Hx) as [V1 V2]. cbn [fst snd] in *.
    rewrite (IHn a), (IHn b); auto; lia.
Qed.
Lemma scalar_simple v : scalar_val v = true -> simple v = true.
Proof. destruct v; try discriminate; reflexivity. Qed.
Lemma prim_simple p v : prim_val p v = true -> simple v = true.
Proof. destruct p, v; try discriminate; reflexivity. Qed.

Section Simple.
  Variables (P : program) (W : world) (skip sk : bool) (Q : classdef -> Prop).
  Notation WIRE := (Wire P W false true skip).
  Notation WT := (wt P W sk Q (fun v => plain v = true)).

  Lemma plains_simple l : Forall (fun v => plain v = true) l -> forallb simple l = true.
  Proof. rewrite Forall_forall, forallb_forall. intros H x Hx. eapply plain_simple; [apply le_n|auto]. Qed.

  Theorem wire_simple : forall n v, vsize v <= n -> forall t nm tg co x, tyok P W tg co t -> WT v t ->
    WIRE nm tg v t x -> simple x = true.
  Proof.
    induction n; intros v Hn; [destruct v; simpl in Hn; lia|].
    assert (IH : forall u, vsize u < vsize v -> forall t nm tg co x, tyok P W tg co t -> WT u t ->
      WIRE nm tg u t x -> simple x = true) by (intros u Hu; apply IHn; lia).
    clear IHn. induction t using pytype_ind'; intros nm tg co x T Wv X; try (cbn [tyok] in T; contradiction).
    - inversion X; subst. eapply prim_simple; eauto.
    - inversion X; subst. cbn [simple]. eapply prim_simple; eauto.
    - inversion X; subst. eapply prim_simple; eauto.
    - inversion X; subst. reflexivity.
    - inversion X; subst. inversion Wv; subst. eapply plain_simple; [apply le_n|auto].
    - destruct (is_opt (TUnion l)) eqn:O.
      + destruct (opt_shape l O) as [a [-> Ha]]. cbn [tyok] in T. rewrite Ha in T.
        apply wr_opt in X; [|exact Ha]. destruct X as [[Ev Ex]|[N X]]; [subst; reflexivity|].
        apply wr_wt_opt in Wv; [|exact Ha]. destruct Wv as [Wv|[_ Wv]]; [congruence|].
        rewrite Forall_forall in H. eapply (H a (or_introl eq_refl)); eauto.
      + assert (U : union_ok P W tg l) by (apply tyok_union with (co := co); auto).
        pose proof U as U'. destruct U' as [UA [UC _]]. rewrite Forall_forall in UA.
        apply wr_union in X as [[t [Ht [Hc X]]]|[c [x' [Hc [X Tx]]]]]; auto.
        * destruct (wr_arm _ _ _ _ _ _ _ _ _ _ (UA _ Ht) Hc X) as [[-> S]|[B [KT HO]]]; [now apply scalar_simple|].
          rewrite Forall_forall in H. apply (H t Ht true tg false x); auto; [now apply carrier_tyok|]. eapply wt_arm_bulk; eauto.
        * destruct (wr_class _ _ _ _ _ _ _ _ _ _ X) as [l1 E1].
          assert (S : simple x' = true).
          { subst v. eapply wt_arm_class in Wv; eauto.
            rewrite Forall_forall in H. apply (H _ Hc true tg co x'); auto; exact I. }
          destruct tg; cbn [tagged] in Tx; subst; cbn [simple forallb]; rewrite ?S; auto.
          destruct Tx as [l0 [-> ->]]. cbn [simple] in S |- *. rewrite forallb_app, S. reflexivity.
    - inversion X; subst. inversion Wv; subst. cbn [simple]. apply forallb_forall, Forall_forall. eapply F2_all; [|eassumption].
      cbv beta. intros a x Ha. rewrite Forall_forall in *. eapply IH; eauto. now apply vsize_seq.
    - inversion X; subst. inversion Wv; subst. cbn [simple]. apply forallb_forall, Forall_forall. eapply F2_all; [|eassumption].
      cbv beta. intros a x Ha. rewrite Forall_forall in *. eapply IH; eauto; [now apply vsize_seq|apply T].
    - inversion X; subst. inversion Wv; subst. cbn [simple]. apply forallb_forall, Forall_forall. eapply F2_all; [|eassumption].
      cbv beta. intros a x Ha. rewrite Forall_forall in *. eapply IH; eauto. now apply vsize_seq.
    - inversion X; subst. inversion Wv; subst. cbn [simple]. apply forallb_forall, Forall_forall. eapply F2_all; [|eassumption].
      cbv beta. intros [a1 a2] [x1 x2] Ha [R1 R2]. cbn [fst snd] in *. rewrite Forall_forall in *.
      destruct (vsize_map MCounter l _ Ha) as [V1 V2]. cbn [fst snd] in *.
      match goal with F : forall x, In x l -> _ |- _ => destruct (F _ Ha) as [Wk [z Wz]] end. cbn [fst snd] in Wk, Wz.
      rewrite (IH a1 V1 t nm tg co x1); auto; [|cbn [tyok] in T; tauto]. subst. reflexivity.
    - inversion X; subst. inversion Wv; subst. cbn [simple]. cbn [tyok] in T. apply forallb_forall, Forall_forall. eapply F2_all; [|eassumption].
      cbv beta. intros [a1 a2] [x1 x2] Ha [R1 R2]. cbn [fst snd] in *. rewrite Forall_forall in *.
      destruct (vsize_map m l _ Ha) as [V1 V2]. cbn [fst snd] in *.
      match goal with F : forall x, In x l -> _ |- _ => destruct (F _ Ha) as [Wk Wx] end. cbn [fst snd] in Wk, Wx.
      rewrite (IH a1 V1 t1 nm tg co x1), (IH a2 V2 t2 nm tg co x2); auto; apply T.
    - inversion X; subst. inversion Wv; subst. cbn [simple]. cbn [tyok] in T. destruct T as [_ T].
      apply forallb_forall, Forall_forall. eapply F3_all; [|eassumption]. cbv beta. intros a b x Hab.
      assert (Ta : tyok P W tg co a).
      { apply in_combine_l in Hab. clear -T Hab. induction l as [|z l IHl]; [contradiction|]. destruct T as [T1 T2].
        destruct Hab as [->|Hab]; auto. }
      eapply (IH b); eauto; [apply vsize_seq; eapply in_combine_r; eauto|].
      match goal with F : Forall2 (fun t x => WT x t) _ _ |- _ => exact (F2_combine _ _ _ _ _ F Hab) end.
    - inversion X; subst. inversion Wv; subst. cbn [simple]. apply forallb_forall, Forall_forall. eapply F2_all; [|eassumption].
      cbv beta. intros a x Ha. rewrite Forall_forall in *. eapply IH; eauto. now apply vsize_seq.
    - inversion X; subst; inversion Wv; subst; match goal with B : bare_val _ _ _ _ |- _ => cbn [bare_val] in B end.
      + cbn [simple]. now apply plains_simple.
      + cbn [simple]. destruct k; try contradiction; destruct s; try contradiction; apply plains_simple; tauto.
      + destruct k; try contradiction; destruct x as [| | | | | | |k0 l0| | | | |]; try contradiction; destruct k0; try contradiction; (eapply plain_simple; [apply le_n|assumption]).
      + destruct x as [| | | | | |k0 l0| | | | | |]; try contradiction; destruct k0; try contradiction. cbn [simple]. now apply plains_simple.
      + cbn [simple]. now apply plains_simple.
      + eapply plain_simple; [apply le_n|assumption].
    - inversion X; subst. cbn [tyok] in T. destruct T as [e [He [_ [Hs _]]]].
      match goal with M : enum_member P c _ = _ |- _ => unfold enum_member in M; rewrite He in M; apply slookup_In in M; destruct (Hs _ _ M) as [S _] end.
      now apply scalar_simple.
    - destruct (wr_class _ _ _ _ _ _ _ _ _ _ X) as [attrs ->].
      apply wt_obj_inv in Wv as [d [Hd [F [_ [FF _]]]]].
      assert (FT : forall f nv, In (f, nv) (combine (c_fields d) attrs) -> written f = true ->
         tyok P W (c_tagging d) (coerces d) (f_type f) /\ WT (snd nv) (f_type f) /\ vsize (snd nv) < vsize (VObj c attrs)).
      { intros f nv Hc Hw. split; [|split].
        - apply frag_tyok; auto. eapply in_combine_l; eauto.
        - apply (F2_combine _ _ _ _ _ FF) in Hc. destruct Hc as [_ [Hc _]]. apply Hc. now rewrite Hw.
        - apply vsize_obj. eapply in_combine_r; eauto. }
      assert (CS : forall f nv, In (f, nv) (combine (c_fields d) attrs) -> written f = true -> forall x, coded f (snd nv) x -> simple x = true).
      { intros f nv Hc Hw y [g [Eg Gy]]. apply (F2_combine _ _ _ _ _ FF) in Hc. destruct Hc as (_ & _ & _ & _ & _ & _ & Hc).
        destruct (Hc Hw) as (z & S1 & [g' [Eg' Gz]] & _); [congruence|]. assert (z = y) as -> by congruence. now apply scalar_simple. }
      destruct (wr_obj _ _ _ _ _ _ _ _ _ _ _ Hd X) as [[Tr [-> [ox [-> FX]]]]|[[Tr [-> [ox [-> FX]]]]|[Tr [f [v [Ef [-> X']]]]]]].
      + cbn [simple]. apply forallb_forall, Forall_forall, Forall_concat. eapply F3_all; [|eassumption]. cbv beta.
        intros f nv o Hc [[Hw ->]|[[Hw [Hfl [k [x [Hk [Wx Hx]]]]]]|[Hfl [d1 [c1 [at1 [l1 [Hk [Ev [Wx Hx]]]]]]]]]]; [constructor| |].
        2:{ destruct (frag_kid _ _ _ _ _ d f (snd nv) d1 c1 at1 F (in_combine_l _ _ _ _ Hc) Hk (fun Hw => proj1 (proj2 (FT f nv Hc Hw))) Ev) as [Hw KF].
          destruct (FT f nv Hc Hw) as [_ [_ Q4]].
          destruct Hx as [[S1 [S2 ->]]|[S1 ->]]; [constructor|]. eapply F3_all; [|exact Wx]. cbv beta. intros g nv' kv Hg [k [x [E1 [W1 ->]]]].
          destruct (KF g nv' Hg) as [Q1 [Q2 Q3]]. cbn [simple andb]. eapply (IH (snd nv')); eauto. lia. }
        destruct (FT f nv Hc Hw) as [T1 [T2 T3]].
        apply rule_out in Hx as [->| ->]; [constructor|]. constructor; [|constructor]. cbn [simple andb]. destruct Wx as [[_ Wx]|Wx]; [|exact (CS _ _ Hc Hw _ Wx)]. eapply IH; eauto.
      + cbn [simple]. apply forallb_forall, Forall_forall, Forall_concat. eapply F3_all; [|eassumption]. cbv beta.
        intros f nv o Hc [[Hw ->]|[[Hw [Hfl [x [Wx ->]]]]|[Hfl [d1 [c1 [at1 [Hk [Ev Wx]]]]]]]]; [constructor| |].
        2:{ destruct (frag_kid _ _ _ _ _ d f (snd nv) d1 c1 at1 F (in_combine_l _ _ _ _ Hc) Hk (fun Hw => proj1 (proj2 (FT f nv Hc Hw))) Ev) as [Hw KF].
          destruct (FT f nv Hc Hw) as [_ [_ Q4]]. eapply F3_all; [|exact Wx]. cbv beta. intros g nv' kv Hg W1.
          destruct (KF g nv' Hg) as [Q1 [Q2 Q3]]. eapply (IH (snd nv')); eauto. lia. }
        destruct (FT f nv Hc Hw) as [T1 [T2 T3]]. constructor; [|constructor]. destruct Wx as [[_ Wx]|Wx]; [|exact (CS _ _ Hc Hw _ Wx)]. eapply IH; eauto.
      + assert (Hw : written f = true).
        { destruct F as (_ & _ & _ & _ & _ & _ & _ & _ & _ & _ & _ & _ & _ & K14). destruct (K14 Tr) as [f' [Ef' [Hw _]]]. congruence. }
        destruct (FT f (f_name f, v)) as [T1 [T2 T3]]; auto; [rewrite Ef; now left|]. eapply (IH v); eauto.
    - inversion X; subst. inversion Wv; subst. cbn [tyok] in T. rewrite forallb_forall in T.
      match goal with Hx : In ?y l |- _ => specialize (T _ Hx); destruct y; try discriminate; reflexivity end.
    - inversion X; subst. reflexivity.
    - inversion X; subst. reflexivity.
    - inversion X; subst. inversion Wv; subst. eapply IHt; eauto. apply T.
  Qed.
End Simple.

(** * The theorems *)
Section Props.
  Variables (P : program) (W : world) (K : list (tagging * pytype)).
  Hypothesis NoSers : p_sers P = [].
  Hypothesis NoDes : p_des P = [].

  (** C49.  The result of to_dict and to_tuple on a well typed instance is the data described by [Wire], and nothing else.
      Values under Any may be any plain data here. *)
  Theorem C49_to_dict c d attrs ro rc skip cc tg x :
    get_class P c = Some d -> wt P W false (fun _ => True) (fun _ => True) (VObj c attrs) (TClass c) -> no_union cc ->
    (Wire P W (flag ro (c_reuse d)) (flag rc (c_conv d)) skip true tg (VObj c attrs) (TClass c) x <->
     exists N, forall n, N <= n -> to_dict P W K n (VObj c attrs) cc ro rc skip = Ok x).
  Proof.
    intros Hd HW NU. destruct (to_obj_class P W K NoSers _ _ _ c d attrs true ro rc skip cc Hd HW NU) as [y [Y1 [N Y2]]].
    split.
    - intros X. rewrite (wire_det P W _ _ _ _ _ _ _ _ (le_n _) (TClass c) true tg false x y I HW X (Y1 tg)). now exists N.
    - intros [M HM]. unfold to_dict in HM. specialize (HM (Nat.max N M) (Nat.le_max_r _ _)). rewrite (Y2 _ (Nat.le_max_l _ _)) in HM.
      injection HM as <-. apply Y1.
  Qed.
  Theorem C49_to_tuple c d attrs ro rc skip cc tg x :
    get_class P c = Some d -> wt P W false (fun _ => True) (fun _ => True) (VObj c attrs) (TClass c) -> no_union cc ->
    (Wire P W (flag ro (c_reuse d)) (flag rc (c_conv d)) skip false tg (VObj c attrs) (TClass c) x <->
     exists N, forall n, N <= n -> to_tuple P W K n (VObj c attrs) cc ro rc skip = Ok x).
  Proof.
    intros Hd HW NU. destruct (to_obj_class P W K NoSers _ _ _ c d attrs false ro rc skip cc Hd HW NU) as [y [Y1 [N Y2]]].
    split.
    - intros X. rewrite (wire_det P W _ _ _ _ _ _ _ _ (le_n _) (TClass c) false tg false x y I HW X (Y1 tg)). now exists N.
    - intros [M HM]. unfold to_tuple in HM. specialize (HM (Nat.max N M) (Nat.le_max_r _ _)). rewrite (Y2 _ (Nat.le_max_l _ _)) in HM.
      injection HM as <-. apply Y1.
  Qed.

  (** C50.  Data that stands for an instance is read as that instance; so data stands for one instance at most. *)
  Theorem C50_from_dict c d v tg tg' x ro :
    get_class P c = Some d -> Acc P W (flag ro (c_reuse d)) false true tg v (TClass c) x ->
    exists N, forall n, N <= n -> from_dict P W K n (tg', TClass c) x ro None = Ok v.
  Proof. intros Hd A. apply (from_obj_class P W K NoDes c d v true tg tg' x ro None); auto. discriminate. Qed.
  Theorem C50_from_tuple c d v tg tg' x ro :
    get_class P c = Some d -> Acc P W (flag ro (c_reuse d)) false false tg v (TClass c) x ->
    exists N, forall n, N <= n -> from_tuple P W K n (tg', TClass c) x ro None = Ok v.
  Proof. intros Hd A. apply (from_obj_class P W K NoDes c d v false tg tg' x ro None); auto. discriminate. Qed.
  Theorem C50_unique c d v v' nm tg tg' x ro :
    get_class P c = Some d -> Acc P W ro false nm tg v (TClass c) x -> Acc P W ro false nm tg' v' (TClass c) x -> v = v'.
  Proof.
    intros Hd A A'.
    destruct (from_obj_class P W K NoDes c d v nm tg TagExternal x (Some ro) None) as [N HN]; auto; [discriminate|].
    destruct (from_obj_class P W K NoDes c d v' nm tg' TagExternal x (Some ro) None) as [M HM]; auto; [discriminate|].
    specialize (HN (Nat.max N M) (Nat.le_max_l _ _)). specialize (HM (Nat.max N M) (Nat.le_max_r _ _)). congruence.
  Qed.

  (** C29.  Values under Any and elements of bare collections are taken to be plain data already; [C29_any_refuted] shows that
      to_dict does not make them so. *)
  Theorem C29_plain_partial c d attrs skip cc :
    get_class P c = Some d -> wt P W false (fun _ => True) (fun v => plain v = true) (VObj c attrs) (TClass c) -> no_union cc ->
    exists x N, simple x = true /\ forall n, N <= n -> to_dict P W K n (VObj c attrs) cc (Some false) (Some true) skip = Ok x.
  Proof.
    intros Hd HW NU. destruct (to_obj_class P W K NoSers _ _ _ c d attrs true (Some false) (Some true) skip cc Hd HW NU) as [y [Y1 [N Y2]]].
    exists y, N. split; [|exact Y2]. eapply (wire_simple P W skip _ _ _ _ (le_n _) (TClass c) true TagExternal false); [exact I|exact HW|apply Y1].
  Qed.
  Theorem C29_tuple_partial c d attrs skip cc :
    get_class P c = Some d -> wt P W false (fun _ => True) (fun v => plain v = true) (VObj c attrs) (TClass c) -> no_union cc ->
    exists x N, simple x = true /\ forall n, N <= n -> to_tuple P W K n (VObj c attrs) cc (Some false) (Some true) skip = Ok x.
  Proof.
    intros Hd HW NU. destruct (to_obj_class P W K NoSers _ _ _ c d attrs false (Some false) (Some true) skip cc Hd HW NU) as [y [Y1 [N Y2]]].
    exists y, N. split; [|exact Y2]. eapply (wire_simple P W skip _ _ _ _ (le_n _) (TClass c) false TagExternal false); [exact I|exact HW|apply Y1].
  Qed.

  (** C21.  A transparent class is written as the value of its field ... *)
  Theorem C21_writes c d f attrs ro rc skip cc :
    get_class P c = Some d -> c_transparent d = true -> c_fields d = [f] ->
    wt P W false (fun _ => True) (fun _ => True) (VObj c attrs) (TClass c) -> no_union cc ->
    exists v x N, attrs = [(f_name f, v)] /\
      Wire P W (flag ro (c_reuse d)) (flag rc (c_conv d)) skip true (c_tagging d) v (f_type f) x /\
      (forall y, Wire P W (flag ro (c_reuse d)) (flag rc (c_conv d)) skip true (c_tagging d) v (f_type f) y -> y = x) /\
      forall n, N <= n -> to_dict P W K n (VObj c attrs) cc ro rc skip = Ok x.
  Proof.
    intros Hd Ht Hf HW NU. destruct (to_obj_class P W K NoSers _ _ _ c d attrs true ro rc skip cc Hd HW NU) as [x [X1 [N X2]]].
    destruct (wr_obj _ _ _ _ _ _ _ _ _ _ _ Hd (X1 TagExternal)) as [[Tr _]|[[Tr _]|[Tr [f' [v [Ef [-> X']]]]]]]; try congruence.
    rewrite Hf in Ef. injection Ef as <-. exists v, x, N. split; [reflexivity|]. split; [exact X'|]. split; [|exact X2].
    intros y Y. eapply (wire_det P W _ _ _ _ _ _ _ _ (le_n _) (TClass c) true TagExternal false y x I HW); [|apply X1].
    eapply W_obj_transparent; eauto.
  Qed.
  (** ... so if the field holds an instance of a dataclass, wrapper and instance are written alike ... *)
  Theorem C21_same c d f c' d' attrs r k skip cc cc' :
    get_class P c = Some d -> c_transparent d = true -> c_fields d = [f] -> f_type f = TClass c' -> get_class P c' = Some d' ->
    wt P W false (fun _ => True) (fun _ => True) (VObj c attrs) (TClass c) -> no_union cc -> no_union cc' ->
    exists v x N, attrs = [(f_name f, v)] /\ forall n, N <= n ->
      to_dict P W K n (VObj c attrs) cc (Some r) (Some k) skip = Ok x /\
      to_dict P W K n v cc' (Some r) (Some k) skip = Ok x.
  Proof.
    intros Hd Ht Hf Ty Hd' HW NU NU'.
    destruct (C21_writes c d f attrs (Some r) (Some k) skip cc Hd Ht Hf HW NU) as [v [x [N [E [X1 [X2 X3]]]]]].
    rewrite Ty in X1, X2. destruct (wr_class _ _ _ _ _ _ _ _ _ _ X1) as [attrs' ->].
    assert (HW' : wt P W false (fun _ => True) (fun _ => True) (VObj c' attrs') (TClass c')).
    { apply wt_obj_inv in HW as [d0 [Hd0 [F [_ [FF _]]]]]. rewrite Hd in Hd0. injection Hd0 as <-. subst attrs. rewrite Hf in FF.
      inversion FF; subst. match goal with H : _ /\ _ |- _ => destruct H as [_ [H _]]; rewrite Ty in H; apply H end.
      destruct F as (_ & _ & _ & _ & _ & _ & _ & _ & _ & _ & _ & _ & _ & K14). destruct (K14 Ht) as [f' [Ef' [Hw _]]].
      rewrite Hf in Ef'. injection Ef' as <-. now rewrite Hw. }
    destruct (to_obj_class P W K NoSers _ _ _ c' d' attrs' true (Some r) (Some k) skip cc' Hd' HW' NU') as [y [Y1 [M Y2]]].
    rewrite (X2 y (Y1 _)) in Y2. exists (VObj c' attrs'), x, (Nat.max N M). split; [exact E|]. intros n Hn. split; [apply X3|apply Y2]; lia.
  Qed.
  (** ... and read from data for the type of the field. *)
  Theorem C21_reads c d f v x ro tg :
    get_class P c = Some d -> frag_class P W d -> c_transparent d = true -> c_fields d = [f] ->
    Acc P W (flag ro (c_reuse d)) false true (c_tagging d) v (f_type f) x ->
    c_post d (VObj c [(f_name f, v)]) = Ok (VObj c [(f_name f, v)]) ->
    exists N, forall n, N <= n -> from_dict P W K n (tg, TClass c) x ro None = Ok (VObj c [(f_name f, v)]).
  Proof.
    intros Hd F Ht Hf A Hp. eapply C50_from_dict; [exact Hd|]. eapply (A_obj_transparent _ _ _ _ true TagExternal); eauto. discriminate.
  Qed.
  Theorem C21_round_trip c d f v ro rc skip cc ro' tg :
    get_class P c = Some d -> c_transparent d = true -> c_fields d = [f] ->
    wt P W skip (fun _ => True) (fun v => plain v = true) (VObj c [(f_name f, v)]) (TClass c) -> no_union cc ->
    (flag ro (c_reuse d) = true -> flag ro' (c_reuse d) = true) ->
    exists x N, Wire P W (flag ro (c_reuse d)) (flag rc (c_conv d)) skip true (c_tagging d) v (f_type f) x /\ forall n, N <= n ->
      to_dict P W K n (VObj c [(f_name f, v)]) cc ro rc skip = Ok x /\
      from_dict P W K n (tg, TClass c) x ro' None = Ok (VObj c [(f_name f, v)]).
  Proof.
    intros Hd Ht Hf HW NU HR.
    destruct (C01_dict_round_trip P W K NoSers NoDes c d [(f_name f, v)] ro rc skip cc ro' tg Hd HW NU HR) as [x [N H]].
    assert (HW' : wt P W false (fun _ => True) (fun _ => True) (VObj c [(f_name f, v)]) (TClass c)).
    { eapply wt_mono; [..|apply le_n|exact HW]; auto. discriminate. }
    destruct (C21_writes c d f [(f_name f, v)] ro rc skip cc Hd Ht Hf HW' NU) as [v' [y [M [E [Y1 [_ Y2]]]]]]. injection E as <-.
    exists x, N. split; [|exact H].
    assert (y = x) as <-; [|exact Y1]. specialize (Y2 _ (Nat.le_max_r N M)). destruct (H _ (Nat.le_max_l N M)) as [H1 _]. congruence.
  Qed.
End Props.

(** * Examples *)
Module WireEx.
  Import TripEx.

  (** C49, C29: the recursive class of TripEx; a set, an enum, a date, a path and a Counter become plain data. *)
  Example obj_wt' : wt p w false (fun _ => True) (fun _ => True) obj (TClass "Tree").
  Proof. eapply wt_mono; [..|apply le_n|exact obj_wt]; auto. Qed.
  Example obj_written : exists x N, simple x = true /\ forall n, N <= n -> to_dict p w [] n obj None (Some false) (Some true) true = Ok x.
  Proof.
    apply (C29_plain_partial p w [] eq_refl "Tree" tree); auto; [|exact I]. eapply wt_mono; [..|apply le_n|exact obj_wt]; auto.
  Qed.
  Example bx_form : Wire p w true false false true TagExternal bx (TClass "Box")
    (dict [("X", VInt 1); ("Shape", dict [("c", dict [("Name", VStr "l")]); ("t", VStr "Leaf")])]).
  Proof.
    apply (C49_to_dict p w [] eq_refl "Box" box _ (Some true) (Some false) false None); auto; [|exact I|].
    - apply (wtb_ok p w false _ _ (fun _ => true) frag (fun _ _ => I) (fun _ _ => I) 20). vm_compute. reflexivity.
    - exists 20. intros n Hn. apply run_mono with (n := 20); [exact Hn|vm_compute; reflexivity|discriminate].
  Qed.
  (** the same instances kept: simple data only without reuse_instances and with convert_sets *)
  Example not_simple : exists x, to_dict p w [] 20 obj None (Some true) (Some false) true = Ok x /\ simple x = false.
  Proof. eexists. split; [vm_compute; reflexivity|]. vm_compute. reflexivity. Qed.

  (** C50: an alias, text for an int key, a missing optional entry, a tuple for a list, an unknown key *)
  Definition q := prog [cls "R" [fld "a" (TDict DkDict TInt TString); fld "b" (TOpt TInt); fld "c" (TList LList TInt); with_names None ["alt"] (fld "e" TInt)]] [].
  Lemma fragq : forall d, In d (p_classes q) -> frag_class q w d.
  Proof. apply (frag_classesb_ok q w 3). vm_compute. reflexivity. Qed.
  Definition data := dict [("c", VSeq KTuple [VInt 1]); ("alt", VInt 9); ("a", dict [("7", VStr "x")]); ("z", VNone)].
  Definition value := VObj "R" [("a", VMap MDict [(VInt 7, VStr "x")]); ("b", VNone); ("c", vlist [VInt 1]); ("e", VInt 9)].
  Example accepted : Acc q w true false true TagExternal value (TClass "R") data.
  Proof.
    eapply A_obj; [reflexivity|apply fragq; now left|reflexivity|discriminate| |reflexivity]. cbn [c_fields].
    repeat (apply Forall2_cons); [| | | |apply Forall2_nil].
    - split; [reflexivity|right]. split; [reflexivity|left]. split; [reflexivity|]. exists (dict [("7", VStr "x")]). split; [vm_compute; reflexivity|]. left. split; [reflexivity|].
      apply A_dict; [constructor| | |reflexivity].
      + constructor; [|constructor]. split; [right|now constructor]. split; [reflexivity|]. exists 7%Z, "7". repeat split.
      + repeat constructor.
    - split; [reflexivity|right]. split; [reflexivity|right; left]. split; [reflexivity|]. split; [vm_compute; reflexivity|]. split; [|reflexivity].
      vm_compute. auto.
    - split; [reflexivity|right]. split; [reflexivity|left]. split; [reflexivity|]. exists (VSeq KTuple [VInt 1]). split; [vm_compute; reflexivity|]. left. split; [reflexivity|].
      apply A_list. constructor; [now constructor|constructor].
    - split; [reflexivity|right]. split; [reflexivity|left]. split; [reflexivity|]. exists (VInt 9). split; [vm_compute; reflexivity|]. left. split; [reflexivity|now constructor].
  Qed.
  Example accepted_read : from_dict q w [] 20 (TagExternal, TClass "R") data (Some true) None = Ok value.
  Proof. vm_compute. reflexivity. Qed.

  (** C21: Box is transparent and holds a Pt. *)
  Example box_as_pt : exists x N, forall n, N <= n ->
    to_dict p w [] n bx None (Some true) (Some false) true = Ok x /\
    to_dict p w [] n (VObj "Pt" [("x", VInt 1); ("shape", VObj "Leaf" [("name", VStr "l")])]) None (Some true) (Some false) true = Ok x.
  Proof.
    destruct (C21_same p w [] eq_refl "Box" box (fld "inner" (TClass "Pt")) "Pt" pt
                [("inner", VObj "Pt" [("x", VInt 1); ("shape", VObj "Leaf" [("name", VStr "l")])])] true false true None None)
      as [v [x [N [E H]]]]; auto; try exact I.
    - apply (wtb_ok p w false _ _ (fun _ => true) frag (fun _ _ => I) (fun _ _ => I) 20). vm_compute. reflexivity.
    - injection E as <-. exists x, N. exact H.
  Qed.
End WireEx.

Print Assumptions C49_to_dict.
Print Assumptions C49_to_tuple.
Print Assumptions C50_from_dict.
Print Assumptions C50_from_tuple.
Print Assumptions C50_unique.
Print Assumptions C29_plain_partial.
Print Assumptions C29_tuple_partial.
Print Assumptions C21_writes.
Print Assumptions C21_same.
Print Assumptions C21_reads.
Print Assumptions C21_round_trip.
