(** Fields left out for their value are restored when the object is read back: C53. *)
From Coq Require Import String List ZArith Bool Lia SpecFloat.
From Verif Require Import Base PyVal PyType Program Compat Syntax SeRender DeRender Eval Formats Facts Mono Ex Spec Cover SeRT DeRT SpecFmt Transport RoundTrip PropsTrip Decide PropsWire.
Import ListNotations.
Open Scope string_scope.
Open Scope list_scope.

(** A default of a primitive type that is == to no other value of the type.  The zero of float is not
    one: 0.0 == -0.0. *)
Definition sharp_prim (p : prim) (v : pyval) : Prop :=
  match p, v with
  | PInt, VInt _ | PBool, VBool _ | PStr, VStr _ => True
  | PFloat, VFloat f => forall s, f <> S754_zero s
  | _, _ => False
  end.

Section Sharp.
  Variable (P : program).

  (** [sharp t v]: the serialized form of a value of type [t] is == to the default [v] only if the value
      is [v]. *)
  Fixpoint sharp (t : pytype) (v : pyval) : Prop :=
    match t with
    | TPrim p | TNewType _ p => sharp_prim p v
    | TPrimSub n p => exists w, v = VSub n w /\ sharp_prim p w
    | TNone => v = VNone
    | TUnion l =>
        match l with
        | [a; TNone] => is_none a = false /\ (v = VNone /\ nonnull P a = true \/ v <> VNone /\ sharp a v)
        | _ => False
        end
    | TList _ a => exists l, v = VSeq KList l /\ Forall (sharp a) l
    | TVarTuple a => exists l, v = VSeq KTuple l /\ Forall (sharp a) l
    | TTuple ts => exists l, v = VSeq KTuple l /\
        (fix all ts l := match ts, l with
                         | [], [] => True
                         | t :: ts, x :: l => sharp t x /\ all ts l
                         | _, _ => False
                         end) ts l
    | TDeque _ => exists l, v = VSeq KDeque l
    | TSet k _ => v = VSeq (set_kind k) []
    | TCounter _ => v = VMap MCounter []
    | TDict k _ b => exists m, dict_kind k b m /\ v = VMap m []
    | TEnum c => exists m x, v = VEnum c m /\ enum_member P c m = Some x
    | TStr k => exists s, v = VInst k s
    | TDate k => exists s, v = VDate k s
    | TAlias _ a => sharp a v
    | _ => False
    end.

  (** The options that leave out the field depending on its value are skip_if_default, with a default as
      above, or skip_if_none, for a field that is None when absent. *)
  Definition omit_rule (d : classdef) (f : fielddef) : Prop :=
    f_skip_if f = None /\ f_skip_if_false f = false /\
    if either (f_skip_if_default f) (c_skip_if_default d) then
      dflt f = None \/ exists v, dflt f = Some (Ok v) /\ sharp (f_type f) v
    else if either (f_skip_if_none f) (c_skip_if_none d) then
      nonnull P (f_type f) = true /\ (read f = true -> absent_ok f VNone)
    else True.
End Sharp.

Section Props.
  Variables (P : program) (W : world).
  Variables (reuse conv skip sk : bool) (Q : classdef -> Prop) (raw : pyval -> Prop).
  Notation WIRE := (Wire P W reuse conv skip).
  Notation WT := (wt P W sk Q raw).

  Lemma sfeqb_eq x y : SFeqb x y = true -> (forall s, y <> S754_zero s) -> x = y.
  Proof.
    unfold SFeqb. destruct x as [[]|[]| |[] mx ex], y as [[]|[]| |[] my ey]; simpl; intros E N; try discriminate E; try reflexivity;
      try (exfalso; eapply N; reflexivity).
    - destruct (ex ?= ey)%Z eqn:C; try discriminate. apply Z.compare_eq in C. subst.
      rewrite Pos.compare_cont_spec in E. destruct (mx ?= my)%positive eqn:D; try discriminate. apply Pos.compare_eq in D. now subst.
    - destruct (ex ?= ey)%Z eqn:C; try discriminate. apply Z.compare_eq in C. subst.
      rewrite Pos.compare_cont_spec in E. destruct (mx ?= my)%positive eqn:D; try discriminate. apply Pos.compare_eq in D. now subst.
  Qed.
  Lemma sharp_prim_eq p x v : prim_val p x = true -> sharp_prim p v -> eqv P x v = true -> x = v.
  Proof.
    destruct p, x; try discriminate; destruct v; cbn [sharp_prim]; try contradiction; intros _ S E; unfold eqv in E; cbn in E.
    - apply Z.eqb_eq in E. now subst.
    - f_equal. now apply sfeqb_eq.
    - destruct b, b0; try discriminate; reflexivity.
    - apply String.eqb_eq in E. now subst.
  Qed.
  Lemma eqv_none x : eqv P x VNone = true -> x = VNone.
  Proof. unfold eqv. destruct x; cbn; try discriminate; auto; destruct (scalar _ _) || destruct (enum_scalar _ _ _); discriminate. Qed.
  Lemma eqv_seq k l k' l' : eqv P (VSeq k l) (VSeq k' l') = true ->
    seqkind_class k = seqkind_class k' /\ List.length l = List.length l' /\
    (is_setkind k = false -> Forall2 (fun x y => eqv P x y = true) l l').
  Proof.
    unfold eqv. cbn [py_eqb scalar]. intros E. apply andb_prop in E. destruct E as [E E3]. apply andb_prop in E. destruct E as [E1 E2].
    apply Nat.eqb_eq in E1, E2. split; auto. split; auto. intros S. rewrite S in E3. revert l' E2 E3.
    induction l as [|x l IH]; destruct l' as [|y l']; cbn; intros; try discriminate; constructor.
    - apply andb_prop in E3. apply E3.
    - apply IH; [congruence|]. apply andb_prop in E3. apply E3.
  Qed.

  Lemma sharp_enum c m x v : enum_wf P c -> enum_member P c m = Some x -> forall m', v = VEnum c m' ->
    (exists x', enum_member P c m' = Some x') -> eqv P x v = true -> VEnum c m = v.
  Proof.
    intros [e [He [ND [H1 H2]]]] Hx m' -> [x' Hx'] E. unfold enum_member in Hx, Hx'. rewrite He in Hx, Hx'.
    apply slookup_In in Hx. pose proof (slookup_In _ _ _ Hx') as Ix'. f_equal. apply (H2 _ _ _ _ Hx Ix').
    destruct (H1 _ _ Hx) as [S _], (H1 _ _ Ix') as [S' _].
    assert (B : enum_scalar P c m' = None \/ enum_scalar P c m' = base_scalar x').
    { unfold enum_scalar. rewrite He, Hx'. destruct (e_mixin e); auto. }
    unfold eqv in *.
    destruct B as [B|B]; destruct x; try discriminate S; cbn [py_eqb scalar] in E; rewrite B in E; try discriminate E;
      destruct x'; try discriminate S'; cbn in E |- *; try discriminate E; exact E.
  Qed.

  Lemma sharp_list (T : pytype) tg l l' dl :
    (forall v x dv, sharp P T dv -> WT v T -> WIRE true tg v T x -> eqv P x dv = true -> v = dv) ->
    Forall (sharp P T) dl -> Forall (fun v => WT v T) l -> Forall2 (fun v x => WIRE true tg v T x) l l' ->
    Forall2 (fun x y => eqv P x y = true) l' dl -> l = dl.
  Proof.
    intros H S V X. revert dl S. induction X as [|v x l l' Hx X IH]; intros dl S E; inversion E; subst; [reflexivity|].
    inversion S; subst. inversion V; subst. f_equal; eauto.
  Qed.

  (** A value other than None is not written as None. *)
  Lemma nonnull_wire t : forall nm tg co v x, tyok P W tg co t -> nonnull P t = true -> WIRE nm tg v t x -> v <> VNone -> x <> VNone.
  Proof.
    induction t using pytype_ind'; intros nm tg co v x T NN X Hv; cbn [tyok] in T; try contradiction;
      try (inversion X; subst; try (destruct reuse); try (destruct conv); auto; discriminate).
    - destruct (is_opt (TUnion l)) eqn:O.
      + destruct (opt_shape l O) as [a [-> Ha]]. rewrite Ha in T.
        assert (HN : nonnull P a = true) by (cbn [nonnull forallb] in NN; now apply andb_prop in NN as [? _]).
        apply wr_opt in X as [[-> _]|[_ X]]; auto.
        rewrite Forall_forall in H. eapply (H a (or_introl eq_refl)); eauto.
      + assert (U : union_ok P W tg l) by (apply tyok_union with (co := co); auto).
        apply wr_union in X as [[t [Ht [Hc X]]]|[c [x' [Hc [X Tg]]]]]; auto.
        * destruct U as [UA _]. rewrite Forall_forall in UA. specialize (UA _ Ht).
          destruct (arm_cases P t UA) as [[p ->]|[->|[[c [-> _]]|[B _]]]]; [| |discriminate|].
          -- inversion X; subst; auto.
          -- inversion X; subst; auto.
          -- intros ->. destruct t; try discriminate B; inversion X.
        * pose proof (union_tagged P W tg l c U Hc) as UT. destruct tg; cbn [tagged] in *; try congruence.
          destruct Tg as [l0 [_ ->]]. discriminate.
    - inversion X; subst. cbn [nonnull] in NN. destruct T as [e [He _]]. rewrite He in NN.
      match goal with M : enum_member _ _ _ = Some _ |- _ => unfold enum_member in M; rewrite He in M; apply slookup_In in M; rename M into Hi end.
      rewrite forallb_forall in NN. specialize (NN _ Hi). cbn [snd] in NN. intros ->. discriminate.
    - inversion X; subst; try discriminate. cbn [nonnull] in NN.
      match goal with H1 : get_class P c = Some _, H2 : c_transparent _ = true |- _ => rewrite H1, H2 in NN; discriminate end.
    - inversion X; subst. eapply IHt; eauto. apply T.
  Qed.

  Theorem sharp_eq t : forall co tg v x dv, tyok P W tg co t -> sharp P t dv -> WT v t -> WIRE true tg v t x -> eqv P x dv = true -> v = dv.
  Proof.
    induction t using pytype_ind'; intros co tg v x dv T S V X E; cbn [sharp] in S; try contradiction.
    - inversion X; subst. eapply sharp_prim_eq; eauto.
    - destruct S as [w [-> S]]. inversion X as [|? ? ? ? u Hu| | | | | | | | | | | | | | | | | | | | | | | | | | | |]; subst. f_equal. eapply sharp_prim_eq; eauto.
      destruct p, u; try discriminate Hu; destruct w; try contradiction; exact E.
    - inversion X; subst. eapply sharp_prim_eq; eauto.
    - inversion X; subst. reflexivity.
    - destruct l as [|a [|[] [|]]]; try contradiction. destruct S as [Ha S].
      assert (T' : tyok P W tg co a) by (cbn [tyok] in T; now rewrite Ha in T).
      inversion H as [|? ? Ia _]; subst. clear H.
      destruct (wr_opt P W _ _ _ _ _ _ _ _ Ha X) as [[-> ->]|[Nv Xa]].
      + destruct S as [[-> _]|[Nd Sd]]; [reflexivity|]. exfalso. apply Nd.
        unfold eqv in E. destruct dv; try reflexivity; cbn in E; try discriminate E; destruct (scalar _ _) || destruct (enum_scalar _ _ _); discriminate E.
      + destruct (wr_wt_opt P W _ _ _ _ _ Ha V) as [->|[_ Va]]; [congruence|].
        destruct S as [[-> Nn]|[Nd Sd]]; [|eapply Ia; eauto].
        exfalso. apply eqv_none in E. revert E. eapply nonnull_wire; eauto.
    - destruct S as [dl [-> S]]. inversion X; subst. apply eqv_seq in E. destruct E as [_ [_ E]]. f_equal.
      inversion V; subst. eapply (sharp_list t); eauto.
    - subst. inversion X; subst. apply eqv_seq in E. destruct E as [_ [E _]]. inversion V; subst. f_equal.
      match goal with F : Forall2 _ l l' |- _ => apply Forall2_len in F; rewrite E in F; destruct l; [reflexivity|discriminate] end.
    - destruct S as [dl ->]. inversion X; subst. apply eqv_seq in E. destruct E as [E _]. discriminate E.
    - subst. inversion X; subst. unfold eqv in E. cbn [py_eqb scalar] in E. apply andb_prop in E. destruct E as [E _]. apply Nat.eqb_eq in E. f_equal.
      match goal with F : Forall2 _ l l' |- _ => apply Forall2_len in F; rewrite E in F; destruct l; [reflexivity|discriminate] end.
    - destruct S as [m' [Km ->]]. inversion X; subst. unfold eqv in E. cbn [py_eqb scalar] in E. apply andb_prop in E. destruct E as [E _]. apply Nat.eqb_eq in E.
      inversion V; subst. f_equal.
      + destruct k; cbn [dict_kind] in *; try congruence. destruct (factory_of t2); [congruence|contradiction].
      + match goal with F : Forall2 _ l l' |- _ => apply Forall2_len in F; rewrite E in F; destruct l; [reflexivity|discriminate] end.
    - destruct S as [dl [-> S]]. inversion X as [| | | | | | | | | | | | |? ? ? vl xl F| | | | | | | | | | | | | | | |]; subst. apply eqv_seq in E. destruct E as [_ [_ E]]. specialize (E eq_refl). f_equal.
      inversion V as [| | | | | | | | | | | |? ? VF| | | | | | | | |]; subst. cbn [tyok] in T. destruct T as [_ T].
      clear X V. revert dl S E. revert VF T H. induction F as [|t v x ts vl xl Hx F IH]; intros VF T H dl S E; inversion E; subst; [reflexivity|].
      inversion VF; subst. inversion H; subst. destruct T as [T1 T2], S as [S1 S2]. f_equal; eauto.
    - destruct S as [dl [-> S]]. inversion X; subst. apply eqv_seq in E. destruct E as [_ [_ E]]. f_equal.
      inversion V; subst. eapply (sharp_list t); eauto.
    - destruct S as [m [x' [-> Hm]]]. inversion X; subst. eapply sharp_enum; eauto.
    - destruct S as [s ->]. inversion X; subst. unfold eqv in E. destruct reuse; cbn in E; [|discriminate].
      apply andb_prop in E. destruct E as [_ E]. apply String.eqb_eq in E. now subst.
    - destruct S as [s ->]. inversion X; subst. unfold eqv in E. destruct reuse; cbn in E; [|discriminate].
      apply andb_prop in E. destruct E as [_ E]. apply String.eqb_eq in E. now subst.
    - inversion X; subst. inversion V; subst. destruct T as [T _]. eapply IHt; eauto.
  Qed.
End Props.

Section C53.
  Variables (P : program) (W : world) (K : list (tagging * pytype)).
  Hypothesis NoSers : p_sers P = [].
  Hypothesis NoDes : p_des P = [].

  Lemma omit_safe sk Q raw d f v :
    frag_field P W d f -> f_serializer f = None -> written f = true -> omit_rule P d f -> wt P W sk Q raw v (f_type f) -> safe_skip P W d f v.
  Proof.
    intros F NS Wr [S1 [S2 R]] V reuse conv skip x [[_ X]|[g [X _]]]; [|congruence]. unfold drops. rewrite S1, S2.
    destruct F as [[_ [_ [_ [T _]]]] _].
    assert (T' : tyok P W (c_tagging d) (coerces d) (f_type f)) by (apply T; now rewrite Wr). clear T.
    destruct (either (f_skip_if_default f) (c_skip_if_default d)) eqn:E1.
    - destruct R as [R|[dv [R S]]].
      + rewrite R. exists false. split; [reflexivity|discriminate].
      + rewrite R. cbn [bind]. eexists. split; [reflexivity|]. intros E _. unfold absent_ok. rewrite R. f_equal. symmetry.
        eapply sharp_eq; eauto.
    - destruct (either (f_skip_if_none f) (c_skip_if_none d)) eqn:E2; [|exact I].
      eexists. split; [reflexivity|]. destruct R as [NN A]. intros E Rd. specialize (A Rd).
      assert (v = VNone); [|now subst]. destruct (is_none_val v) as [|Nv]; [assumption|]. exfalso.
      assert (H : x = VNone) by (destruct x; try discriminate E; reflexivity). revert H. eapply nonnull_wire; eauto.
  Qed.

  (** C53.  An object of a class whose fields may be left out under skip_if_default or skip_if_none, be it
      an option of the field or of the class, is restored by from_dict. *)
  Theorem C53_left_out_restored c d attrs ro rc cc ro' tg :
    get_class P c = Some d -> frag_class P W d ->
    Forall2 (fun f nv =>
      fst nv = f_name f /\
      (written f || read f = true -> wt P W false (fun _ => True) (fun v => plain v = true) (snd nv) (f_type f)) /\
      (read f = false -> dflt f = Some (Ok (snd nv))) /\
      (read f = true -> written f = false -> absent_ok f (snd nv)) /\
      f_serializer f = None /\ omit_rule P d f) (c_fields d) attrs ->
    c_post d (VObj c attrs) = Ok (VObj c attrs) ->
    no_union cc ->
    (flag ro (c_reuse d) = true -> flag ro' (c_reuse d) = true) ->
    exists x N, forall n, N <= n ->
      to_dict P W K n (VObj c attrs) cc ro rc false = Ok x /\
      from_dict P W K n (tg, TClass c) x ro' None = Ok (VObj c attrs).
  Proof.
    intros Hd F A Hp NU HR. apply (C01_dict_round_trip P W K NoSers NoDes c d); auto.
    apply wt_obj with (d := d); auto.
    pose proof F as [_ [_ [_ [_ [_ [_ [FF _]]]]]]]. rewrite Forall_forall in FF.
    clear Hp. revert A FF. generalize (c_fields d). intros fs A. induction A as [|f nv fs attrs H A IH]; intros FF; constructor.
    - destruct H as [H1 [H2 [H3 [H4 [H5 H6]]]]]. repeat split; auto; try discriminate; [|congruence].
      intros Wr _. eapply omit_safe; eauto; [apply FF; now left|]. apply H2. now rewrite Wr.
    - apply IH. intros g Hg. apply FF. now right.
  Qed.
End C53.
Print Assumptions C53_left_out_restored.

(** Without the conditions on the default it is lost: *)
Module SkipRef.
  Definition opt (f : fielddef) := with_skip_if None false None (Some true) f.
  (** a: float = field(default=0.0, skip_if_default=True) *)
  Definition zero := cls "Zero" [opt (with_default (VFloat (S754_zero false)) (fld "a" TFloat))].
  (** a: int = field(default=True, skip_if_default=True) *)
  Definition bool1 := cls "Bool1" [opt (with_default (VBool true) (fld "a" TInt))].
  (** a: int = field(skip_if_false=True) *)
  Definition falsy := cls "Falsy" [with_skip_if None true None None (fld "a" TInt)].
  (** a: int | None = field(default=3, skip_if_none=True) *)
  Definition nul := cls "Nul" [with_skip_if None false (Some true) None (with_default (VInt 3) (fld "a" (TOpt TInt)))].
  Definition p := prog [zero; bool1; falsy; nul] [].
End SkipRef.

(** -0.0 comes back as 0.0 *)
Theorem C53_zero_refuted : exists P W n o o' x,
  to_dict P W [] n o None None None false = Ok x /\ from_dict P W [] n (TagExternal, TClass "Zero") x None None = Ok o' /\
  o = VObj "Zero" [("a", VFloat (S754_zero true))] /\ o' = VObj "Zero" [("a", VFloat (S754_zero false))] /\ x = VMap MDict [].
Proof.
  exists SkipRef.p, W0, 20. eexists _, _, _. split; [|split; [|split; [|split]]]; try reflexivity; vm_compute; reflexivity.
Qed.
(** 1 comes back as True *)
Theorem C53_bool_default_refuted : exists P W n o x,
  to_dict P W [] n o None None None false = Ok x /\ o = VObj "Bool1" [("a", VInt 1)] /\
  from_dict P W [] n (TagExternal, TClass "Bool1") x None None = Ok (VObj "Bool1" [("a", VBool true)]).
Proof. exists SkipRef.p, W0, 20. eexists _, _. split; [|split; [reflexivity|]]; vm_compute; reflexivity. Qed.
(** 0 is left out and cannot be read back *)
Theorem C53_false_refuted : exists P W n o x,
  to_dict P W [] n o None None None false = Ok x /\ o = VObj "Falsy" [("a", VInt 0)] /\
  forall v, from_dict P W [] n (TagExternal, TClass "Falsy") x None None <> Ok v.
Proof. exists SkipRef.p, W0, 20. eexists _, _. split; [|split; [reflexivity|]]; vm_compute; [reflexivity|discriminate]. Qed.
(** None comes back as the default *)
Theorem C53_none_refuted : exists P W n o x,
  to_dict P W [] n o None None None false = Ok x /\ o = VObj "Nul" [("a", VNone)] /\
  from_dict P W [] n (TagExternal, TClass "Nul") x None None = Ok (VObj "Nul" [("a", VInt 3)]).
Proof. exists SkipRef.p, W0, 20. eexists _, _. split; [|split; [reflexivity|]]; vm_compute; reflexivity. Qed.
Print Assumptions C53_zero_refuted.
Print Assumptions C53_bool_default_refuted.
Print Assumptions C53_false_refuted.
Print Assumptions C53_none_refuted.

Module SkipEx.
  Definition defaults (d : classdef) : classdef :=
    {| c_id := c_id d; c_name := c_name d; c_fields := c_fields d;
       c_mro := c_mro d; c_rename_all := c_rename_all d; c_reuse := c_reuse d; c_conv := c_conv d;
       c_skip_if_default := true; c_skip_if_none := c_skip_if_none d;
       c_serializer := c_serializer d; c_deserializer := c_deserializer d;
       c_tagging := c_tagging d; c_check := c_check d; c_ser_class_var := c_ser_class_var d;
       c_class_vars := c_class_vars d;
       c_transparent := c_transparent d; c_class_ser := c_class_ser d; c_class_de := c_class_de d; c_deny := c_deny d;
       c_tvars := c_tvars d; c_post := c_post d; c_hashable := c_hashable d |}.
  Definition item := cls "Item" [fld "n" TInt].
  (** @serde(skip_if_default=True) class Conf *)
  Definition conf := defaults (cls "Conf"
    [fld "id" TInt;
     with_default (VInt 8080) (fld "port" TInt);
     with_default (VFloat (S754_finite false 1 0)) (fld "rate" TFloat);
     with_default VNone (fld "note" (TOpt TString));
     with_default (vlist []) (fld "items" (TList LList (TClass "Item")));
     with_default (VEnum "Color" "RED") (fld "color" (TEnum "Color"));
     with_skip_if None false (Some true) (Some false) (fld "tag" (TOpt (TList LList TInt)));
     with_skip_if None false None (Some false) (with_default (VInt 1) (fld "level" TInt))]).
  Definition p := prog [conf; item] [mkEnum "Color" "Color" None [("RED", VInt 1); ("BLUE", VInt 2)]].
  Lemma frag : forall d, In d (p_classes p) -> frag_class p W0 d.
  Proof. apply (frag_classesb_ok p W0 3). vm_compute. reflexivity. Qed.
  Definition vals (rate items : pyval) := [("id", VInt 1); ("port", VInt 8080); ("rate", rate); ("note", VNone);
     ("items", items); ("color", VEnum "Color" "RED"); ("tag", VNone); ("level", VInt 1)].
  Definition obj := VObj "Conf" (vals (VFloat (S754_finite false 1 1)) (vlist [])).
  Example obj_restored : exists x N, forall n, N <= n ->
    to_dict p W0 [] n obj None None None false = Ok x /\ from_dict p W0 [] n (TagExternal, TClass "Conf") x None None = Ok obj.
  Proof.
    apply (C53_left_out_restored p W0 [] eq_refl eq_refl "Conf" conf); auto; [apply frag; now left| |exact I].
    assert (WTB : forall v t, wtb p W0 false plain 20 v t = true -> wt p W0 false (fun _ => True) (fun v => plain v = true) v t).
    { intros v t. apply (wtb_ok p W0 false _ _ plain frag (fun _ _ => I) (fun _ H => H) 20). }
    unfold vals, conf. cbn [c_fields defaults cls].
    repeat (apply Forall2_cons; [split; [reflexivity|split; [intros _; apply WTB; vm_compute; reflexivity|split; [discriminate|split; [discriminate|split; [reflexivity|]]]]]|]); [| | | | | | | |constructor];
      split; [reflexivity| |reflexivity| |reflexivity| |reflexivity| |reflexivity| |reflexivity| |reflexivity| |reflexivity|];
      (split; [reflexivity|]); cbn.
    - now left.
    - right. eexists. split; [reflexivity|exact I].
    - right. eexists. split; [reflexivity|]. discriminate.
    - right. eexists. split; [reflexivity|]. split; [reflexivity|]. left. split; reflexivity.
    - right. eexists. split; [reflexivity|]. exists []. split; [reflexivity|constructor].
    - right. eexists. split; [reflexivity|]. exists "RED", (VInt 1). split; reflexivity.
    - split; [reflexivity|]. intros _. repeat split; reflexivity.
    - exact I.
  Qed.
  (** Of the fields only "id", the rate that differs from its default, the enum (its serialized form is never
      == to the default) and the field without skip_if_default are written. *)
  Example obj_form : to_dict p W0 [] 20 obj None None None false =
    Ok (dict [("id", VInt 1); ("rate", VFloat (S754_finite false 1 1)); ("color", VInt 1); ("level", VInt 1)]).
  Proof. vm_compute. reflexivity. Qed.

  (** C01 with a predicate of the user and skip_if_false: lines: list[int] = field(default_factory=list,
      skip_if=lambda v: not v), text: str = field(default="", skip_if_false=True) *)
  Definition no_elems (x : pyval) : res bool := Ok match x with VSeq _ [] => true | _ => false end.
  Definition log := cls "Log"
    [with_skip_if (Some no_elems) false None None (with_default (vlist []) (fld "lines" (TList LList TInt)));
     with_skip_if None true None None (with_default (VStr "") (fld "text" TString));
     fld "n" TInt].
  Definition q := prog [log] [].
  Lemma qfrag : forall d, In d (p_classes q) -> frag_class q W0 d.
  Proof. apply (frag_classesb_ok q W0 3). vm_compute. reflexivity. Qed.
  Definition lg (l : list pyval) (s : string) := VObj "Log" [("lines", vlist l); ("text", VStr s); ("n", VInt 0)].
  Example log_restored : Forall (fun o => exists x N, forall n, N <= n ->
      to_dict q W0 [] n o None None None false = Ok x /\ from_dict q W0 [] n (TagExternal, TClass "Log") x None None = Ok o)
    [lg [] ""; lg [VInt 2] ""; lg [] "a"].
  Proof.
    repeat (apply Forall_cons; [apply (C01_dict_round_trip q W0 [] eq_refl eq_refl "Log" log); auto; [|exact I];
      apply (wtb_ok q W0 false _ _ plain qfrag (fun _ _ => I) (fun _ H => H) 20); vm_compute; reflexivity|]). constructor.
  Qed.
  Example log_form : to_dict q W0 [] 20 (lg [] "") None None None false = Ok (dict [("n", VInt 0)]).
  Proof. vm_compute. reflexivity. Qed.
End SkipEx.
