(** MsgPack extension types (C54), options that are rejected (C55), class variables (C56) and the serializer
    and deserializer of a class (C57). *)
From Coq Require Import String Ascii List NArith ZArith Bool Lia.
From Verif Require Import Base PyVal PyType Program Compat Syntax SeRender DeRender Eval Formats Facts Mono Ex Spec Cover Walk SeRT DeRT SpecFmt Transport RoundTrip PropsTrip Decide Depend PropsSe PropsDe PropsField PropsGlobal.
Import ListNotations.
Open Scope string_scope.
Open Scope list_scope.

(** * C54: ext_dict *)

Section Ext.
  Variables (P : program) (W : world) (K : list (tagging * pytype)).
  Hypothesis NoSers : p_sers P = [].
  Hypothesis NoDes : p_des P = [].

  (** Unpacking an extension type returns its code and its data. *)
  Definition ext_law (E : ext_codec) : Prop := forall code s y, ext_dumps E code s = Ok y -> ext_loads E y = Ok (Some (code, s)).

  (** The code [z] of class [c] in the dict given to to_msgpack, the class of code [z] in the one given to from_msgpack *)
  Definition has_code (ext : list (string * Z)) (c : string) (z : Z) : Prop := NoDup (map fst ext) /\ In (c, z) ext.
  Definition has_type (ext : list (Z * (tagging * pytype))) (z : Z) (t : tagging * pytype) : Prop := NoDup (map fst ext) /\ In (z, t) ext.

  Lemma has_code_lookup ext c attrs z : has_code ext c z -> ext_code ext (VObj c attrs) = Some z.
  Proof.
    intros [ND H]. cbn [ext_code]. induction ext as [|[a b] l IH]; [destruct H|]. cbn [slookup]. inversion ND as [|? ? N1 N2]; subst.
    destruct H as [H|H]; [injection H as -> ->; now rewrite String.eqb_refl|].
    destruct (String.eqb_spec a c) as [->|_]; [|auto]. elim N1. now apply (in_map fst) in H.
  Qed.
  Lemma has_type_lookup ext z t : has_type ext z t -> ext_type ext z = Some t.
  Proof.
    intros [ND H]. unfold ext_type. induction ext as [|[a b] l IH]; [destruct H|]. cbn [find fst]. inversion ND as [|? ? N1 N2]; subst.
    destruct H as [H|H]; [injection H as -> ->; now rewrite Z.eqb_refl|].
    destruct (Z.eqb_spec a z) as [->|_]; [|auto]. elim N1. now apply (in_map fst) in H.
  Qed.

  (** What is written with the code of its class is read back, whatever class is passed to from_msgpack. *)
  Theorem C54_round_trip J E c d attrs cc any tg (named : bool) ext ext' z :
    codec_law false false (Some KTuple) J -> ext_law E ->
    get_class P c = Some d ->
    wt P W false (fun d => named = false -> tuple_class d) (survives false false (Some KTuple)) (VObj c attrs) (TClass c) ->
    no_union cc -> has_code ext c z -> has_type ext' z (tg, TClass c) ->
    exists x N, forall n, N <= n ->
      to_msgpack_ext P W K J E n (VObj c attrs) cc named ext = (s <- dumps J x ;; ext_dumps E z s) /\
      forall y, to_msgpack_ext P W K J E n (VObj c attrs) cc named ext = Ok y ->
        from_msgpack_ext P W K J E n any y named ext' = Ok (VObj c attrs).
  Proof.
    intros HJ HE Hd HW NU HC HT.
    destruct (C43_msgpack_round_trip P W K NoSers NoDes J c d attrs cc tg named HJ Hd HW NU) as (x & N & H).
    exists x, N. intros n Hn. destruct (H n Hn) as [A B].
    assert (EQ : to_msgpack_ext P W K J E n (VObj c attrs) cc named ext = (s <- dumps J x ;; ext_dumps E z s)).
    { unfold to_msgpack_ext. rewrite (has_code_lookup _ _ _ _ HC). cbn [of_option bind]. now rewrite A. }
    split; [exact EQ|]. intros y Hy. rewrite EQ in Hy. inv_bind Hy. apply HE in Hy.
    unfold from_msgpack_ext. rewrite Hy. cbn [bind of_option fst snd]. rewrite (has_type_lookup _ _ _ HT). cbn [of_option bind].
    now apply B.
  Qed.

  (** A class without code, or a code without class, is an error; nothing is converted in that case. *)
  Theorem C54_no_code J E n c attrs cc named ext :
    ~ In c (map fst ext) -> exists m, to_msgpack_ext P W K J E n (VObj c attrs) cc named ext = Raise (XSerde m).
  Proof.
    intros H. unfold to_msgpack_ext. cbn [ext_code]. assert (E0 : slookup c ext = None) by now apply slookup_None.
    rewrite E0. cbn [of_option bind]. eauto.
  Qed.
  Theorem C54_no_type J E n any named ext' s z b :
    ext_loads E s = Ok (Some (z, b)) -> ~ In z (map fst ext') ->
    exists m, from_msgpack_ext P W K J E n any s named ext' = Raise (XSerde m).
  Proof.
    intros L H. unfold from_msgpack_ext. rewrite L. cbn [bind of_option fst].
    assert (E0 : ext_type ext' z = None).
    { unfold ext_type. destruct (find _ ext') as [[a t]|] eqn:F; [|reflexivity]. apply find_some in F as [F1 F2]. cbn [fst] in F2.
      apply Z.eqb_eq in F2. subst a. elim H. now apply (in_map fst) in F1. }
    rewrite E0. cbn [of_option bind]. eauto.
  Qed.
End Ext.

(** * C55: options that are rejected *)

Section Misuse.
  Variables (P : program) (W : world) (K : list (tagging * pytype)).

  (** flatten on something that is neither a dataclass, an Optional dataclass nor a dict *)
  Definition flattenable (t : pytype) : Prop :=
    (exists c, t = TClass c) \/ (exists c, t = TUnion [TClass c; TNone]) \/
    (exists k, k <> DkDefault /\ t = TBare (BDict k)) \/ (exists k, t = TDict k (TPrim PStr) TAny).

  (** skip_deserializing on an argument of the constructor that has no default *)
  Definition misused (f : fielddef) : Prop :=
    f_flatten f = true /\ ~ flattenable (f_type f) \/
    f_skip_de f = true /\ f_init f = true /\ f_default f = None /\ f_skip f = false.

  Lemma misused_check f : misused f -> exists m, check_field f = Raise (XSerde m).
  Proof.
    unfold check_field. intros [[F H]|(A & B & C & D)].
    - rewrite F. cbn [andb].
      assert (E : (is_class (f_type f) || match opt_arg (f_type f) with Some a => is_class a | None => false end || is_flatten_dict (f_type f)) = false).
      { destruct (_ || _) eqn:E; [|reflexivity]. exfalso. apply H. clear H. unfold flattenable.
        apply orb_prop in E as [E|E]; [apply orb_prop in E as [E|E]|].
        - destruct (f_type f); try discriminate. left; eauto.
        - destruct (opt_arg (f_type f)) as [a|] eqn:O; [|discriminate]. destruct a; try discriminate. right; left.
          exists c. destruct (f_type f) as [| | | | |l| | | | | | | | | | | | | | | | | |]; try discriminate.
          destruct l as [|x [|y [|? ?]]]; try discriminate; destruct y; try discriminate. cbn [opt_arg] in O.
          destruct (is_none x); [discriminate|]. now injection O as ->.
        - destruct (f_type f) as [| | | | | | | | | |k a b| | |b| | | | | | | | | |]; try discriminate.
          + right; right; right. destruct a as [p| | | | | | | | | | | | | | | | | | | | | | |]; try discriminate. destruct p; try discriminate. destruct b; try discriminate. eauto.
          + right; right; left. destruct b as [| | | |k|]; try discriminate. exists k. split; [|reflexivity]. intros ->. discriminate E. }
      rewrite E. cbn [negb]. eauto.
    - rewrite A, B, C, D. cbn [andb negb]. destruct (_ && _); eauto.
  Qed.

  (** The default factories of the class return. *)
  Definition factories_return (d : classdef) : Prop := forall f r, In f (c_fields d) -> dflt f = Some r -> exists v, r = Ok v.

  Lemma skip_ends d f : In f (c_fields d) -> factories_return d -> exists s, field_skip (c_skip_if_default d) (c_skip_if_none d) f = Ok s.
  Proof.
    intros Hf FE. specialize (FE f). unfold field_skip. unfold dflt in FE.
    assert (D : exists o, (if flag (f_skip_if_default f) (c_skip_if_default d) then
                  match f_default f with
                  | Some (DVal v) => Ok (Some v)
                  | Some (DFact r) => v <- r ;; Ok (Some v)
                  | None => Ok None end
                else Ok None) = Ok o).
    { destruct (flag (f_skip_if_default f) _); [|eauto]. destruct (f_default f) as [[v|r]|]; [eauto| |eauto].
      destruct (FE r Hf eq_refl) as [v ->]. cbn [bind]. eauto. }
    destruct D as [o ->]. cbn [bind].
    destruct (f_skip_if f); [eauto|]. destruct (f_skip_if_false f); [eauto|].
    destruct (flag (f_skip_if_default f) _); [eauto|]. destruct (flag (f_skip_if_none f) _); eauto.
  Qed.

  Lemma check_serde f : check_field f = Ok tt \/ exists m, check_field f = Raise (XSerde m).
  Proof. unfold check_field. destruct (_ && _); [eauto|]. destruct (_ && _ && _ && _); eauto. Qed.

  Lemma mapM_fails {A B} (g : A -> res B) l x : In x l -> (exists m, g x = Raise (XSerde m)) ->
    (forall y, In y l -> (exists z, g y = Ok z) \/ exists m, g y = Raise (XSerde m)) -> exists m, mapM g l = Raise (XSerde m).
  Proof.
    intros Hx [m Hm] NF. induction l as [|y l IH]; [destruct Hx|]. cbn [mapM].
    destruct (NF y (or_introl eq_refl)) as [[z Hz]|[m' Hz]]; rewrite Hz; cbn [bind]; [|eauto].
    destruct Hx as [->|Hx]; [congruence|]. destruct IH as [e' ->]; auto; [intros; apply NF; now right|]. cbn [bind]. eauto.
  Qed.

  Lemma misused_sefields d f b : In f (c_fields d) -> misused f -> factories_return d -> exists m, sefields d b = Raise (XSerde m).
  Proof.
    intros Hf MU FE. unfold sefields. destruct (misused_check f MU) as [m Hm].
    destruct (mapM_fails (fun f => _ <- check_field f ;; s <- field_skip (c_skip_if_default d) (c_skip_if_none d) f ;; Ok (f, s)) (c_fields d) f Hf) as [e ->].
    - exists m. now rewrite Hm.
    - intros y Hy. destruct (check_serde y) as [->|[m' ->]]; cbn [bind]; [|eauto]. destruct (skip_ends d y Hy FE) as [s ->]. cbn [bind]. eauto.
    - cbn [bind]. eauto.
  Qed.
  Lemma misused_defields d f : In f (c_fields d) -> misused f -> factories_return d -> exists m, defields d = Raise (XSerde m).
  Proof.
    intros Hf MU FE. unfold defields. destruct (misused_check f MU) as [m Hm].
    apply (mapM_fails (fun f => _ <- check_field f ;; _ <- field_skip (c_skip_if_default d) (c_skip_if_none d) f ;; Ok f) (c_fields d) f Hf).
    - exists m. now rewrite Hm.
    - intros y Hy. destruct (check_serde y) as [->|[m' ->]]; cbn [bind]; [|eauto]. destruct (skip_ends d y Hy FE) as [s ->]. cbn [bind]. eauto.
  Qed.

  Lemma misused_to n c d attrs named cc ro rc skip f :
    get_class P c = Some d -> In f (c_fields d) -> misused f -> factories_return d ->
    first_ser P (VObj c attrs) = None -> plain_arg cc ->
    exists m, run P W K (S (S n)) (QToObj (VObj c attrs) named ro rc skip cc) = Raise (XSerde m).
  Proof.
    intros Hd Hf MU FE FS PA. rewrite to_obj_eq, Hd by assumption. cbn [of_option bind].
    destruct (misused_sefields d f (c_ser_class_var d) Hf MU FE) as [m Hm].
    cbn [Eval.run step]. assert (E : render_se P W d named = Raise (XSerde m)).
    { unfold render_se, render_to_dict, render_to_tuple. destruct named; now rewrite Hm. }
    rewrite E. cbn [bind catch]. eauto.
  Qed.

  Lemma misused_from n tg t d data named ro dn f :
    targets P t d -> In f (c_fields d) -> misused f -> factories_return d -> type_is data (unalias t) = false ->
    exists m, run P W K (S (S n)) (QFromObj (tg, t) data named ro dn) = Raise (XSerde m).
  Proof.
    intros HT Hf MU FE TI. rewrite (from_obj_eq _ _ _ _ _ _ d) by assumption.
    destruct (misused_defields d f Hf MU FE) as [m Hm].
    cbn [Eval.run step]. assert (E : render_de P W d named = Raise (XSerde m)).
    { unfold render_de, render_from_dict, render_from_iter. destruct named; now rewrite Hm. }
    rewrite E. cbn [bind catch]. eauto.
  Qed.

  (** No instance of such a class can be written, as a mapping or as a tuple, and none can be read. *)
  Theorem C55_to n c d attrs cc ro rc skip f :
    get_class P c = Some d -> In f (c_fields d) -> misused f -> factories_return d ->
    first_ser P (VObj c attrs) = None -> plain_arg cc ->
    (exists m, to_dict P W K (S (S n)) (VObj c attrs) cc ro rc skip = Raise (XSerde m)) /\
    (exists m, to_tuple P W K (S (S n)) (VObj c attrs) cc ro rc skip = Raise (XSerde m)).
  Proof. intros. split; eapply misused_to; eauto. Qed.

  Theorem C55_from n tg t d data ro dn f :
    targets P t d -> In f (c_fields d) -> misused f -> factories_return d -> type_is data (unalias t) = false ->
    (exists m, from_dict P W K (S (S n)) (tg, t) data ro dn = Raise (XSerde m)) /\
    (exists m, from_tuple P W K (S (S n)) (tg, t) data ro dn = Raise (XSerde m)).
  Proof. intros. split; eapply misused_from; eauto. Qed.
End Misuse.

(** * C56: class variables *)

Section ClassVars.
  Variables (P : program) (W : world) (K : list (tagging * pytype)).
  Hypothesis NoSers : p_sers P = [].
  Notation es := (enum_scalar P).
  Notation run := (run P W K).

  (** Annotations made of primitives and collections *)
  (** A primitive or a collection, whatever its elements *)
  Definition data_head (t : pytype) : bool :=
    match t with
    | TPrim _ | TNone | TAny | TList _ _ | TSet _ _ | TDeque _ | TVarTuple _ | TCounter _ | TDict _ _ _ | TTuple _ => true
    | _ => false
    end.
  (** What else there is in the annotation is also in the annotation of a field of the class. *)
  Definition var_ty (d : classdef) (t : pytype) : Prop := forall u, sub_ty u t -> data_head u = false ->
    exists f, In f (c_fields d) /\ f_skip f = false /\ tyok P W (c_tagging d) (coerces d) (f_type f) /\ sub_ty u (f_type f).

  Lemma data_cov d t : var_ty d t -> Cov P d t.
  Proof.
    intros D.
    assert (C : forall u, sub_ty u t -> data_head u = false -> Cov P d u).
    { intros u S H. destruct (D u S H) as (f & If & Sf & Tf & Uf). eapply Cov_sub; [eapply Cov_field; eauto|exact Uf]. }
    repeat split.
    - intros u N S. destruct (data_head u) eqn:E; [destruct u; discriminate|]. apply (C u S E); [exact N|constructor].
    - intros l S. apply (C (TUnion l) S eq_refl). constructor.
    - intros l S. apply (C (TLit l) S eq_refl). constructor.
  Qed.

  (** The key of a class variable: its name under the rename_all of the class *)
  Definition var_key (d : classdef) (x : string) : option string :=
    match c_rename_all d with None | Some "" => Some x | Some s => w_case W s x end.

  (** The assignments the class variables amount to *)
  Definition var_put (skip : bool) (m : list (pyval * pyval)) (kv : string * pyval) : list (pyval * pyval) :=
    if skip && is_vnone (snd kv) then m else dset es m (VStr (fst kv)) (snd kv).

  Lemma var_get skip k l : forall m, dget es (fold_left (var_put skip) l m) (VStr k) =
    match slookup k (rev (filter (fun kv => negb (skip && is_vnone (snd kv))) l)) with Some v => Some v | None => dget es m (VStr k) end.
  Proof.
    induction l as [|[a b] l IH]; intros m; cbn [fold_left filter rev]; [reflexivity|]. rewrite IH. unfold var_put at 1. cbn [fst snd].
    destruct (skip && is_vnone b); cbn [negb]; [reflexivity|]. cbn [rev]. rewrite slookup_app. cbn [slookup].
    destruct (slookup k (rev (filter _ l))); [reflexivity|]. rewrite dget_dset_str. now destruct (String.eqb a k).
  Qed.

  Lemma conv_var d x k : conv W (c_rename_all d) x None = Ok k -> var_key d x = Some k.
  Proof.
    unfold conv, var_key. intros H. inv_bind H. injection H as <-. destruct (c_rename_all d) as [[|b r']|]; try (injection Hb as <-; reflexivity).
    cbn [String.eqb] in Hb. destruct (w_case W _ _); congruence.
  Qed.

  Definition var_name (cv : string * pytype * pyval) : string := fst (fst cv).

  (** The statements of the class variables come last. *)
  Lemma vars_run n d c attrs ro rc skip x :
    c_transparent d = false -> c_ser_class_var d = true -> c_serializer d = None -> c_class_ser d = None ->
    run (S n) (QSe d (VObj c attrs) true ro rc skip) = Ok x ->
    exists fns m l, se_fns P (class_fuel P) d = Ok fns /\ x = VMap MDict (fold_left (var_put skip) l m) /\
      Forall2 (fun cv kv => var_key d (var_name cv) = Some (fst kv) /\
        exists e, se_ty P (se_cfg d true) false (EAttr obj_var (var_name cv)) (snd (fst cv)) = Ok e /\
          eval P W (run n) (se_ctx P d fns (flag ro (c_reuse d)) (flag rc (c_conv d)) skip) [("obj", VObj c attrs)] e = Ok (snd kv))
        (c_class_vars d) l.
  Proof.
    intros TR CV NL NC H. cbn [Eval.run step] in H. inv_bind H. inv_bind H. cbn [render_se] in Hb. unfold render_to_dict in Hb.
    inv_bind Hb. rename a1 into fs. rewrite TR in Hb. inv_bind Hb. injection Hb as <-. rename a1 into stmts. rename a0 into fns.
    exists fns. unfold sefields in Hb1. inv_bind Hb1. injection Hb1 as <-. rewrite CV in Hb2. rename a into own.
    rewrite filter_app, mapM_app in Hb2. inv_bind Hb2. inv_bind Hb2. injection Hb2 as <-. rename a into st1, a0 into st2.
    cbn [run_se_body] in H. inv_bind H. injection H as <-. rewrite foldM_app in Hb2. inv_bind Hb2. rename a0 into m, a into m'.
    exists m. clear Hb1 Hb4 Hb. set (cx := se_ctx P d fns (flag ro (c_reuse d)) (flag rc (c_conv d)) skip) in *.
    assert (G : exists l, m' = fold_left (var_put skip) l m /\
      Forall2 (fun cv kv => var_key d (var_name cv) = Some (fst kv) /\
        exists e, se_ty P (se_cfg d true) false (EAttr obj_var (var_name cv)) (snd (fst cv)) = Ok e /\
          eval P W (run n) cx [("obj", VObj c attrs)] e = Ok (snd kv)) (c_class_vars d) l).
    2:{ destruct G as (l & -> & G). exists l. auto. }
    revert st2 m Hb3 Hb2. induction (c_class_vars d) as [|[[x t] v] cvs IH]; intros st2 m HS HM; cbn [map filter] in HS.
    - cbn [mapM] in HS. injection HS as <-. cbn [foldM] in HM. injection HM as <-. exists []. split; [reflexivity|constructor].
    - change (negb (se_skipped (fst (class_var_field (x, t, v), @None (string * skipfn))))) with true in HS. cbv iota in HS. cbn [mapM] in HS.
      inv_bind HS. inv_bind HS. injection HS as <-. cbn [fst snd] in Hb. inv_bind Hb. inv_bind Hb. rename a into st, a0 into sts, a1 into rhs, a2 into ts.
      assert (RH : exists e, rhs = [e] /\ se_ty P (se_cfg d true) false (EAttr obj_var x) t = Ok e).
      { rewrite se_field_own in Hb2 by (left; reflexivity). cbn [class_var_field f_type f_serializer] in Hb2.
        assert (FN : forall u, find_ser P (r_class_ser (se_cfg d true)) u = None).
        { intros u. change (r_class_ser (se_cfg d true)) with (c_class_ser d). rewrite NC. unfold find_ser, class_sers. now rewrite NoSers. }
        rewrite FN in Hb2. inv_bind Hb2. injection Hb2 as <-. cbn [class_var_field f_name has_some] in Hb4. cbn [se_ty] in Hb4. rewrite FN in Hb4.
        destruct (se_ty P (se_cfg d true) false (EAttr obj_var x) t) as [e0|?|] eqn:ST; cbn [bind] in Hb4; try discriminate. injection Hb4 as <-.
        eexists. split; [reflexivity|]. unfold legacy_wrap. cbn [se_cfg r_legacy]. rewrite NL. reflexivity. }
      destruct RH as [e [-> RE]]. injection Hb as <-.
      assert (TG : exists k, ts = [TgtKey k] /\ var_key d x = Some k).
      { destruct (class_fuel P); cbn [se_targets class_var_field f_flatten f_name f_rename] in Hb3; inv_bind Hb3; inv_bind Hb3; injection Hb3 as <-;
          unfold lit in *; match goal with L : (if lit_ok ?q then _ else _) = Ok _ |- _ => destruct (lit_ok q); [|discriminate]; injection L as <- end;
          eexists; split; eauto; eapply conv_var; eauto. }
      destruct TG as [k [-> VK]].
      cbn [foldM] in HM. inv_bind HM. rename a into m1. unfold run_sstmt in Hb. cbn [s_rhs s_targets s_skip mapM option_map] in Hb.
      destruct (eval P W (run n) cx [("obj", VObj c attrs)] e) as [y|?|] eqn:EV; cbn [bind] in Hb; try discriminate. cbn [tuple_of] in Hb.
      change (x_skip cx) with skip in Hb.
      assert (M1 : m1 = var_put skip m (k, y)).
      { unfold var_put. cbn [fst snd]. destruct skip; cbn [andb]; [destruct y; injection Hb as <-; reflexivity|injection Hb as <-; reflexivity]. }
      destruct (IH sts m1 Hb1 HM) as (l & -> & F). exists ((k, y) :: l). cbn [fold_left]. rewrite <- M1. split; [reflexivity|].
      constructor; [|exact F]. cbn [fst snd var_name]. split; [exact VK|]. exists e. auto.
  Qed.

  (** With serialize_class_var, every class variable [x: ClassVar[t] = v] has an entry, under its name after rename_all, which is the
      form of [v] as a [t].  It replaces an entry of a field with that key.  Covered: annotations made of primitives, collections
      and what is also in the annotation of a field; see [C56_union_refuted] for others. *)
  Theorem C56_written_partial sk Q raw n c d attrs cc ro rc y x t v k :
    get_class P c = Some d -> c_transparent d = false -> c_ser_class_var d = true -> c_serializer d = None -> c_class_ser d = None ->
    names_ok P d -> unions_ok P d -> literals_ok P d -> plain_arg cc ->
    In (x, t, v) (c_class_vars d) -> NoDup (map (fun cv => var_key d (var_name cv)) (c_class_vars d)) -> NoDup (map var_name (c_class_vars d)) ->
    slookup x attrs = None -> var_ty d t -> tyok P W (c_tagging d) (coerces d) t -> wt P W sk Q raw v t -> var_key d x = Some k ->
    to_dict P W K n (VObj c attrs) cc ro rc false = Ok y ->
    exists kvs z, y = VMap MDict kvs /\ Wire P W (flag ro (c_reuse d)) (flag rc (c_conv d)) false true (c_tagging d) v t z /\ skey P kvs k = Some z.
  Proof.
    intros Hd TR CV NL NC NO UO LO PA HIn NDK NDN NA DT TY HW VK H.
    assert (FS : first_ser P (VObj c attrs) = None) by (unfold first_ser; now rewrite NoSers).
    unfold to_dict in H. destruct n as [|n]; [discriminate|]. apply (to_obj_inv _ _ _ _ _ d) in H; auto. destruct n as [|n]; [discriminate|].
    destruct (vars_run n d c attrs ro rc false y TR CV NL NC H) as (fns & m & l & HF & -> & F).
    destruct (Forall2_in_l _ _ _ _ F HIn) as [[k' z] [Hkv (VK' & e & SE & EV)]]. cbn [fst snd var_name] in *.
    assert (k' = k) by congruence. subst k'.
    destruct (se_good P W K NoSers (flag ro (c_reuse d)) (flag rc (c_conv d)) false sk Q raw _ v (le_n _) t d true (coerces d)) as [z' [WZ EZ]]; auto.
    { now apply data_cov. }
    { split; [repeat split; assumption|eauto]. }
    assert (SP : se_plain (se_cfg d true) true (coerces d)).
    { repeat split; cbn [se_cfg r_named r_legacy r_class_ser r_suppress]; [now rewrite NL|exact NC|]. unfold coerces. destruct (c_check d); auto; discriminate. }
    specialize (EZ _ _ _ SP SE).
    assert (z = z').
    { destruct EZ as [N EZ]. specialize (EZ (Nat.max n N) (Nat.le_max_r _ _) fns [("obj", VObj c attrs)]).
      assert (GA : forall call, eval P W call (se_ctx P d fns (flag ro (c_reuse d)) (flag rc (c_conv d)) false) [("obj", VObj c attrs)] (EAttr obj_var x) = Ok v).
      { intros call. cbn [eval obj_var slookup]. change (String.eqb "obj" "obj") with true. cbn [of_option bind getattr]. rewrite NA, Hd.
        assert (FI : find (fun cv => String.eqb (fst (fst cv)) x) (c_class_vars d) = Some (x, t, v)).
        { clear - HIn NDN. induction (c_class_vars d) as [|[[a b] w] cvs IH]; [destruct HIn|]. cbn [find fst]. inversion NDN as [|? ? N1 N2]; subst.
          destruct HIn as [E|HIn]; [injection E as -> -> ->; now rewrite String.eqb_refl|].
          destruct (String.eqb_spec a x) as [->|_]; [|auto]. elim N1. apply (in_map var_name) in HIn. exact HIn. }
        now rewrite FI. }
      specialize (EZ (GA _)).
      assert (MO : eval P W (run (Nat.max n N)) (se_ctx P d fns (flag ro (c_reuse d)) (flag rc (c_conv d)) false) [("obj", VObj c attrs)] e = Ok z).
      { assert (RL : forall q, rle (run n q) (run (Nat.max n N) q)).
        { intros q. destruct (run n q) eqn:R; try (right; symmetry; apply (run_mono P W K n _ q); [apply Nat.le_max_l|exact R|discriminate]). now left. }
        destruct (eval_mono P W (run n) (run (Nat.max n N)) RL (se_ctx P d fns (flag ro (c_reuse d)) (flag rc (c_conv d)) false) e [("obj", VObj c attrs)]) as [E|E]; congruence. }
      congruence. }
    subst z'. exists (fold_left (var_put false) l m), z. split; [reflexivity|]. split; [exact WZ|].
    unfold skey. rewrite var_get. cbn [andb negb].
    assert (FA : filter (fun kv : string * pyval => true) l = l) by (clear; induction l; cbn [filter]; congruence).
    rewrite FA. rewrite (slookup_functional k (rev l) z); [reflexivity| |].
    - now rewrite <- in_rev.
    - intros z2 H2. rewrite <- in_rev in H2.
      assert (ND : NoDup (map fst l)).
      { assert (EM : map (fun cv => var_key d (var_name cv)) (c_class_vars d) = map Some (map fst l)).
        { clear - F. induction F as [|cv kv cvs l [E _] F IH]; [reflexivity|]. cbn [map]. now rewrite E, IH. }
        rewrite EM in NDK. clear - NDK. induction (map fst l) as [|a r IH]; [constructor|]. cbn [map] in NDK. inversion NDK as [|? ? N1 N2]; subst.
        constructor; [|auto]. intros I. apply N1. now apply in_map. }
      clear - ND Hkv H2. induction l as [|[a b] l IH]; [destruct Hkv|]. cbn [map fst] in ND. inversion ND as [|? ? N1 N2]; subst.
      destruct Hkv as [E|Hkv], H2 as [E2|H2]; [congruence| | |auto].
      + injection E as -> ->. elim N1. now apply (in_map fst) in H2.
      + injection E2 as -> ->. elim N1. now apply (in_map fst) in Hkv.
  Qed.
End ClassVars.

(** * C57: serializer= and deserializer= of a class *)

Section Legacy.
  Variables (P : program) (W : world) (K : list (tagging * pytype)).
  Notation run := (run P W K).
  Notation es := (enum_scalar P).

  (** Types that the generated code passes to the function as they are *)
  Definition passed (t : pytype) : Prop :=
    match t with TPrim _ | TEnum _ | TClass _ | TStr _ | TDate _ => True | _ => False end.

  (** What a value of such a type is written as without the function *)
  Definition usual (co reuse conv skip : bool) (t : pytype) (a v : pyval) : Prop :=
    match t with
    | TPrim _ => if co then a <> VNone /\ call_ctor P W t a = Ok v else v = a
    | TStr k => forall s, a = VInst k s -> v = if reuse then a else VStr s
    | TDate k => forall s, a = VDate k s -> v = if reuse then a else VStr s
    | TEnum c => forall m x, a = VEnum c m -> enum_member P c m = Some x -> (forall c' m', x <> VEnum c' m') -> v = x
    | TClass c => forall l, a = VObj c l -> exists m, to_dict P W K m a None (Some reuse) (Some conv) skip = Ok v
    | _ => True
    end.

  Lemma coerced c f t x v : coerce_object P W c f t x = Ok v -> x <> VNone /\ call_ctor P W t x = Ok v.
  Proof.
    intros H. assert (x <> VNone) by (now intros ->). split; [assumption|]. unfold coerce_object in H. destruct x; try congruence; destruct (call_ctor P W t _); cbn [catch] in H; congruence.
  Qed.
  Lemma no_handler d t : Forall (fun s => ~ handles t s) (sers_of P d) -> find_ser P (c_class_ser d) t = None.
  Proof.
    unfold sers_of, find_ser, class_sers. generalize 0 as i. induction (p_sers P ++ _) as [|s l IH]; intros i F; [reflexivity|].
    inversion F as [|? ? N1 N2]; subst. cbn [last_index]. destruct (ty_mem t (cs_types s)) eqn:T; [|now apply IH]. elim N1. now apply ty_mem_ex.
  Qed.
  Lemma no_handler_de d t : Forall (fun s => ~ de_handles t s) (des_of P d) ->
    find_de P (c_class_de d) t = None /\ find_de P None t = None.
  Proof.
    intros F. assert (G : forall l i, Forall (fun s => ~ de_handles t s) l -> last_index (fun s => ty_mem t (cd_types s)) i l None = None).
    { induction l as [|s l IH]; intros i F'; [reflexivity|]. inversion F' as [|? ? N1 N2]; subst. cbn [last_index].
      destruct (ty_mem t (cd_types s)) eqn:T; [|now apply IH]. elim N1. now apply ty_mem_ex. }
    unfold find_de, class_des. split; apply G; [exact F|]. rewrite app_nil_r. unfold des_of in F. now apply Forall_app in F.
  Qed.

  Lemma class_unhandled d c l : Forall (fun s => ~ handles (TClass c) s) (sers_of P d) -> first_ser P (VObj c l) = None.
  Proof.
    intros F. unfold first_ser. destruct (find _ (p_sers P)) as [s|] eqn:E; [|reflexivity]. apply find_some in E as [E1 E2].
    exfalso. rewrite Forall_forall in F. apply (F s); [apply in_or_app; now left|].
    apply existsb_exists in E2 as [u [Hu T]]. exists u. split; [exact Hu|]. destruct u; cbn [type_is] in T; try discriminate. cbn [ty_eqb]. now rewrite String.eqb_sym.
  Qed.

  Lemma passed_se d f : names_ok P d -> In f (c_fields d) -> f_skip f = false -> passed (f_type f) -> resolve P (se_globals P d) (f_type f) = Ok (f_type f).
  Proof.
    intros NO Hf SK PT. destruct (f_type f) eqn:T; cbn [passed] in PT; try contradiction; [reflexivity|..];
      apply se_lookup; auto; try reflexivity; rewrite <- T; eapply iter_types_field; eauto; try (rewrite T; reflexivity); constructor.
  Qed.
  Lemma passed_de d f : names_ok P d -> In f (c_fields d) -> f_skip f = false -> passed (f_type f) -> resolve P (de_globals P d) (f_type f) = Ok (f_type f).
  Proof.
    intros NO Hf SK PT. destruct (f_type f) eqn:T; cbn [passed] in PT; try contradiction; [reflexivity|..];
      apply de_lookup; auto; try reflexivity; rewrite <- T; eapply iter_types_field; eauto; try (rewrite T; reflexivity); constructor.
  Qed.

  (** Fields that nothing more specific applies to are written as the result of the function, which gets the type of the field and the
      attribute; if it raises SerdeSkip they are written as usual. *)
  Theorem C57_serializer n c d attrs cc ro rc skip x f k g :
    get_class P c = Some d -> shallow d -> NoDup (map (wire_name W d) (declared d)) ->
    first_ser P (VObj c attrs) = None -> plain_arg cc -> names_ok P d ->
    to_dict P W K n (VObj c attrs) cc ro rc skip = Ok x ->
    In f (declared d) -> no_rule d f -> wire_name W d f = Some k ->
    f_serializer f = None -> Forall (fun s => ~ handles (f_type f) s) (sers_of P d) -> passed (f_type f) ->
    c_serializer d = Some g ->
    exists kvs a v, x = VMap MDict kvs /\ getattr P (VObj c attrs) (f_name f) = Ok a /\
      (g (f_type f) a = Ok v \/ g (f_type f) a = Raise XSkip /\
        usual (coerces d) (flag ro (c_reuse d)) (flag rc (c_conv d)) skip (f_type f) a v) /\
      (skip = false \/ v <> VNone -> skey P kvs k = Some v).
  Proof.
    intros Hd FD ND FS PA NO H Hf NR WN HS HN PT HG.
    destruct (se_ok_S _ _ _ _ _ _ H) as [m ->]. pose proof H as H'. unfold to_dict in H'. apply (to_obj_inv _ _ _ _ _ d) in H'; auto.
    destruct (se_ok_S _ _ _ _ _ _ H') as [m' ->]. clear H'.
    destruct (C05_skip_predicates_partial P W K m' c d attrs cc ro rc skip x f k Hd FD ND FS PA H Hf WN) as (kvs & v & -> & S & C).
    assert (Hf' : In f (c_fields d) /\ f_skip f = false).
    { apply filter_In in Hf as [Hf Hw]. split; [exact Hf|]. apply andb_prop in Hw as [Hw _]. unfold written in Hw. now destruct (f_skip f). }
    destruct Hf' as [Hf' SK].
    assert (G : exists a, getattr P (VObj c attrs) (f_name f) = Ok a /\
      (g (f_type f) a = Ok v \/ g (f_type f) a = Raise XSkip /\ usual (coerces d) (flag ro (c_reuse d)) (flag rc (c_conv d)) skip (f_type f) a v)).
    { unfold ser_value in S. inv_bind S. pose proof FD as (_ & _ & _ & FL). rewrite se_field_own in S by now apply FL.
      pose proof (no_handler d (f_type f) HN) as FN. change (r_class_ser (se_cfg d true)) with (c_class_ser d) in S. rewrite FN, HS in S.
      cbn [has_some] in S.
      set (cx := se_ctx P d a (flag ro (c_reuse d)) (flag rc (c_conv d)) skip) in *.
      set (var := EAttr obj_var (f_name f)) in *.
      assert (SE : exists e, se_ty P (se_cfg d true) false var (f_type f) = Ok (ELegacySe (f_type f) var e) /\
        forall y, eval P W (run m') cx [("obj", VObj c attrs)] var = Ok y -> eval P W (run m') cx [("obj", VObj c attrs)] e = Ok v ->
          usual (coerces d) (flag ro (c_reuse d)) (flag rc (c_conv d)) skip (f_type f) y v).
      { assert (LW : forall e, legacy_wrap (se_cfg d true) false false (f_type f) var e = ELegacySe (f_type f) var e).
        { intros e. unfold legacy_wrap. cbn [se_cfg r_legacy]. now rewrite HG. }
        destruct (f_type f) eqn:T; cbn [passed] in PT; try contradiction; cbn [se_ty]; change (r_class_ser (se_cfg d true)) with (c_class_ser d); rewrite FN.
        - assert (SU : coerces d = negb (r_suppress (se_cfg d true))) by (unfold coerces; cbn [se_cfg r_suppress]; now destruct (c_check d)).
          destruct (r_suppress (se_cfg d true)); cbn [bind]; rewrite LW; eexists; (split; [reflexivity|]); intros y V1 V2; cbn [usual]; rewrite SU; cbn [negb].
          + congruence.
          + cbn [eval] in V2. rewrite V1 in V2. cbn [resolve bind] in V2. now apply coerced in V2.
        - cbn [bind]. rewrite LW. eexists. split; [reflexivity|]. intros y V1 V2. cbn [usual]. intros mm x0 -> EM NE. cbn [eval] in V2.
          assert (RS : resolve P (x_g cx) (TEnum c0) = Ok (TEnum c0)) by (rewrite <- T; apply passed_se; auto; now rewrite T). rewrite RS, V1 in V2.
          cbn [bind enum_value enum_unwrap] in V2. rewrite EM in V2. cbn [of_option bind] in V2. destruct x0; congruence.
        - unfold se_class. change (r_class_ser (se_cfg d true)) with (c_class_ser d). rewrite FN, LW. eexists. split; [reflexivity|].
          intros y V1 V2. cbn [usual]. intros l ->. cbn [eval] in V2. rewrite V1 in V2. cbn [bind] in V2. inv_bind V2.
          exists (Datatypes.S m'). unfold to_dict. rewrite to_obj_eq; [|now apply class_unhandled with d|exact I]. rewrite Hb0. cbn [bind].
          cbn [r_named se_cfg] in V2. change (x_reuse cx) with (flag ro (c_reuse d)) in V2. change (x_conv cx) with (flag rc (c_conv d)) in V2.
          change (x_skip cx) with skip in V2. rewrite V2. reflexivity.
        - cbn [bind]. rewrite LW. eexists. split; [reflexivity|]. intros y V1 V2. cbn [usual]. intros s ->. cbn [eval] in V2. cbn [bind truthy] in V2.
          change (x_reuse cx) with (flag ro (c_reuse d)) in V2. rewrite V1 in V2. cbn [bind] in V2.
          assert (TB : truthy es (VBool (flag ro (c_reuse d))) = flag ro (c_reuse d)) by (destruct (flag ro (c_reuse d)); reflexivity). rewrite TB in V2.
          destruct (flag ro (c_reuse d)); injection V2 as <-; reflexivity.
        - cbn [bind]. rewrite LW. eexists. split; [reflexivity|]. intros y V1 V2. cbn [usual]. intros s ->. cbn [eval] in V2. cbn [bind truthy] in V2.
          change (x_reuse cx) with (flag ro (c_reuse d)) in V2. rewrite V1 in V2. cbn [bind] in V2.
          assert (TB : truthy es (VBool (flag ro (c_reuse d))) = flag ro (c_reuse d)) by (destruct (flag ro (c_reuse d)); reflexivity). rewrite TB in V2.
          destruct (flag ro (c_reuse d)); injection V2 as <-; reflexivity. }
      destruct SE as [e [SE US]]. rewrite SE in S. cbn [bind mapM] in S.
      assert (VA : eval P W (run m') cx [("obj", VObj c attrs)] var = getattr P (VObj c attrs) (f_name f)) by reflexivity.
      assert (LG : forall rho, eval P W (run m') cx rho (ELegacySe (f_type f) var e) =
        (y <- eval P W (run m') cx rho var ;; match g (f_type f) y with Raise XSkip => eval P W (run m') cx rho e | r => r end)).
      { intros rho. cbn [eval]. change (x_g cx) with (se_globals P d). rewrite passed_se by assumption. cbn [bind].
        change (c_serializer (x_cls cx)) with (c_serializer d). rewrite HG. reflexivity. }
      rewrite LG, VA in S. destruct (getattr P (VObj c attrs) (f_name f)) as [y| |] eqn:GA; cbn [bind] in S; try discriminate.
      exists y. split; [reflexivity|]. destruct (g (f_type f) y) as [z|ex|] eqn:GY; cbn [bind] in S; try discriminate.
      - left. now injection S as <-.
      - destruct ex; cbn [bind] in S; try discriminate. right. split; [reflexivity|]. apply US; [exact VA|].
        destruct (eval P W (run m') cx [("obj", VObj c attrs)] e); cbn [bind] in S; try discriminate. now injection S as <-. }
    destruct G as (a & A & G). exists kvs, a, v. repeat split; auto.
    rewrite no_rule_drop in C by exact NR. intros [->|NN]; [exact C|]. destruct v; try contradiction; now rewrite andb_false_r in C.
  Qed.

  (** The entry of a field, None if there is none *)
  Definition entry (kvs : list (pyval * pyval)) (k : string) : pyval := match skey P kvs k with Some x => x | None => VNone end.

  (** What an entry of such a type is read as without the function *)
  Definition usual_de (co reuse : bool) (dn : option numhook) (t : pytype) (x v : pyval) : Prop :=
    match t with
    | TPrim p =>
        match p, dn with
        | PFloat, Some h => h x = Ok v
        | _, _ => if co then x <> VNone /\ call_ctor P W t x = Ok v else v = x
        end
    | TEnum c => forall mem, enum_wf P c -> enum_member P c mem = Some x -> v = VEnum c mem
    | TStr k => (forall s, x = VInst k s -> reuse = true -> v = x) /\ ((forall k' s, x <> VInst k' s) \/ reuse = false -> w_ctor W k x = Ok v)
    | TDate k => (forall s, x = VDate k s -> reuse = true -> v = x) /\ ((forall k' s, x <> VDate k' s) \/ reuse = false -> w_iso W k x = Ok v)
    | TClass c => forall d, get_class P c = Some d -> exists n mg mgtv, run n (QDe d x true (Some reuse) dn mg mgtv None) = Ok v
    | _ => True
    end.

  Lemma passed_entry d cfg a t n cx dat e1 m kvs x v : passed t -> resolve P (x_g cx) t = Ok t -> d_suppress cfg = negb (coerces d) -> d_named cfg = true -> get_class P (c_id d) = Some d ->
    x_cls cx = d -> da_flatten a = false -> da_parent a = Some (c_id d) -> da_targs a = None -> prim_data W a t = Ok dat -> da_data W a t = Ok dat ->
    de_gcore P W cfg a t = Ok e1 -> eval P W (run n) cx [("data", VMap m kvs)] dat = Ok x -> eval P W (run n) cx [("data", VMap m kvs)] e1 = Ok v ->
    usual_de (coerces d) (x_reuse cx) (x_dn cx) t x v.
  Proof.
    intros PT RS SU NM GC XC FL PA TA PD DD E1 X V.
    assert (TB : truthy es (VBool (x_reuse cx)) = x_reuse cx) by (destruct (x_reuse cx); reflexivity).
    destruct t; cbn [passed] in PT; try contradiction; unfold de_gcore in E1; cbn [usual_de].
    - unfold de_prim in E1. rewrite PD in E1. cbn [bind is_prim_sub negb] in E1. rewrite andb_true_r in E1.
      set (q := if d_suppress cfg then dat else ECoerce (d_cname cfg) (da_name a) (TPrim p) dat) in E1.
      assert (Q : eval P W (run n) cx [("data", VMap m kvs)] q = Ok v -> if coerces d then x <> VNone /\ call_ctor P W (TPrim p) x = Ok v else v = x).
      { unfold q. rewrite SU. destruct (coerces d); cbn [negb]; [|congruence]. cbn [eval resolve]. rewrite X. cbn [bind]. apply coerced. }
      destruct p; cbn [is_float_class] in E1; injection E1 as <-; try exact (Q V).
      cbn [eval bind] in V. rewrite truthy_bool in V. destruct (x_dn cx) as [h|]; cbn [has_some] in V; [|exact (Q V)]. rewrite X in V. exact V.
    - rewrite PD in E1. cbn [bind] in E1. injection E1 as <-. intros mem EW EM. cbn [eval] in V. rewrite RS, X in V. cbn [bind] in V.
      unfold deserialize_enum in V. rewrite (enum_call_val P c mem x EW EM) in V. congruence.
    - unfold de_class in E1. rewrite FL, DD, PA, TA in E1. cbn [bind] in E1. rewrite NM in E1. injection E1 as <-. intros d' GD. cbn [eval] in V.
      exists n, (x_mg cx), (x_mgtv cx). rewrite X in V.
      destruct (String.eqb (c_id d) c) eqn:EC.
      + apply String.eqb_eq in EC. subst c. cbn [bind] in V. rewrite XC in V. congruence.
      + rewrite RS in V. cbn [bind] in V. rewrite GD in V. exact V.
    - rewrite DD in E1. cbn [bind] in E1. injection E1 as <-. cbn [eval] in V. cbn [bind] in V. rewrite TB, X in V. cbn [bind] in V. rewrite RS in V. cbn [bind call_ctor] in V.
      split.
      + intros s -> RE. rewrite RE in V. cbn [named_inst] in V. rewrite issub_refl in V. cbn in V. congruence.
      + intros NI. destruct (x_reuse cx); [|exact V]. destruct NI as [NI|NI]; [|discriminate].
        replace (named_inst P x (TStr k)) with false in V by (destruct x; try reflexivity; now elim (NI k0 s)). exact V.
    - rewrite DD in E1. cbn [bind] in E1. injection E1 as <-. cbn [eval] in V. cbn [bind] in V. rewrite TB, X in V. cbn [bind] in V. rewrite RS in V. cbn [bind] in V.
      split.
      + intros s -> RE. rewrite RE in V. cbn [named_inst] in V. rewrite issub_refl in V. cbn in V. congruence.
      + intros NI. destruct (x_reuse cx); [|exact V]. destruct NI as [NI|NI]; [|discriminate].
        replace (named_inst P x (TDate k)) with false in V by (destruct x; try reflexivity; now elim (NI k0 s)). exact V.
  Qed.
  Lemma passed_data cfg a t e1 : passed t -> da_flatten a = false -> prim_data W a t = da_data W a t -> de_gcore P W cfg a t = Ok e1 -> exists dat, da_data W a t = Ok dat.
  Proof.
    intros PT FL PD E1.
    destruct t; cbn [passed] in PT; try contradiction; unfold de_gcore, de_prim, de_class in E1; rewrite ?FL, ?PD in E1;
      destruct (da_data W a _) as [y| |]; try discriminate; eauto.
  Qed.
  Lemma passed_missing cfg a t call cx dat e1 rho ex v : passed t -> da_flatten a = false -> prim_data W a t = Ok dat -> da_data W a t = Ok dat ->
    de_gcore P W cfg a t = Ok e1 -> eval P W call cx rho dat = Raise ex -> eval P W call cx rho e1 <> Ok v.
  Proof.
    intros PT FL PD DD E1 X V.
    assert (TB : truthy es (VBool (x_reuse cx)) = x_reuse cx) by (destruct (x_reuse cx); reflexivity).
    destruct t; cbn [passed] in PT; try contradiction; unfold de_gcore in E1.
    - unfold de_prim in E1. rewrite PD in E1. cbn [bind] in E1.
      destruct (is_float_class (TPrim p)), (d_suppress cfg && negb (is_prim_sub (TPrim p))); injection E1 as <-; try congruence;
        cbn [eval resolve bind] in V; rewrite ?X in V; cbn [bind] in V; rewrite ?truthy_bool in V; destruct (x_dn cx); discriminate.
    - rewrite PD in E1. cbn [bind] in E1. injection E1 as <-. cbn [eval] in V. rewrite X in V. now destruct (resolve P (x_g cx) (TEnum c)).
    - unfold de_class in E1. rewrite FL, DD in E1. cbn [bind] in E1. injection E1 as <-. cbn [eval] in V. rewrite X in V.
      match type of V with bind ?y _ = _ => destruct y end; discriminate.
    - rewrite DD in E1. cbn [bind] in E1. injection E1 as <-. cbn [eval] in V. cbn [bind] in V. rewrite TB, X in V. cbn [bind] in V.
      destruct (x_reuse cx); [discriminate|]. now destruct (resolve P (x_g cx) (TStr k)).
    - rewrite DD in E1. cbn [bind] in E1. injection E1 as <-. cbn [eval] in V. cbn [bind] in V. rewrite TB, X in V. cbn [bind] in V.
      destruct (x_reuse cx); [discriminate|]. now destruct (resolve P (x_g cx) (TDate k)).
  Qed.

  (** Fields that nothing more specific applies to are read as the result of the function, which gets the type of the field and the entry,
      or None if there is no entry; if it raises SerdeSkip they are read as usual. *)
  Theorem C57_deserializer n tg t d m kvs ro dn o f g k :
    targets P t d -> dictlike d -> names_ok P d ->
    In f (c_fields d) -> read f = true -> f_flatten f = false -> f_alias f = [] ->
    f_deserializer f = None -> Forall (fun s => ~ de_handles (f_type f) s) (des_of P d) -> passed (f_type f) ->
    c_deserializer d = Some g -> wire_name W d f = Some k ->
    from_dict P W K n (tg, t) (VMap m kvs) ro dn = Ok o ->
    exists attrs v, c_post d (VObj (c_id d) attrs) = Ok o /\ slookup (f_name f) attrs = Some v /\
      (g (f_type f) (entry kvs k) = Ok v \/ g (f_type f) (entry kvs k) = Raise XSkip /\
        (m = MDict ->
         match skey P kvs k with Some x => usual_de (coerces d) (flag ro (c_reuse d)) dn (f_type f) x v | None => dflt f = Some (Ok v) end)).
  Proof.
    intros HT HD NO Hf R FL AL FD HN PT HG WN H.
    destruct (from_dict_object _ _ _ _ _ _ _ _ _ _ _ HT HD (map_not_inst _ _ _ _ _ HT) H) as (n' & known & attrs & _ & _ & A & _ & B & _).
    destruct (B f Hf R) as (v & V1 & V2 & _). exists attrs, v. split; [exact A|]. split; [exact V1|].
    apply takes_plain in V2; [|exact FL]. unfold de_value in V2. inv_bind V2. rename a into e.
    destruct (no_handler_de d (f_type f) HN) as [HN1 HN2].
    assert (SK : f_skip f = false) by (unfold read in R; destruct (f_skip f); [|reflexivity]; now rewrite andb_false_r in R).
    unfold de_render in Hb. cbn [fieldarg field_arg da_deser] in Hb. rewrite FD in Hb. change (d_class_de (de_cfg d true)) with (c_class_de d) in Hb.
    rewrite HN1 in Hb. cbn [de_cfg d_legacy] in Hb. rewrite HG in Hb. cbn [has_some] in Hb.
    set (cfg' := {| d_named := _ |}) in *.
    assert (E : exists e0, de_ty P W cfg' (fieldarg d f data_var) (f_type f) = Ok e0 /\ e = ELegacyDe (f_type f) (EGet data_var k) e0).
    { assert (NG : forall c args, f_type f <> TGen c args) by (intros c args T; rewrite T in PT; exact PT).
      assert (HB : (e0 <- de_ty P W cfg' (fieldarg d f data_var) (f_type f) ;; dat <- da_data_or W (fieldarg d f data_var) (f_type f) ;; Ok (ELegacyDe (f_type f) dat e0)) = Ok e).
      { destruct (f_type f); try exact Hb. now elim (NG c args). }
      inv_bind HB. inv_bind HB. injection HB as <-. exists a. split; [exact Hb0|]. unfold da_data_or in Hb1. cbn [fieldarg field_arg da_iter] in Hb1.
      inv_bind Hb1. injection Hb1 as <-. apply key_wire in Hb2. rewrite WN in Hb2. now injection Hb2 as <-. }
    clear Hb. destruct E as [e0 [E0 ->]].
    assert (LG : eval P W (run n') (top_ctx P d t ro dn) [("data", VMap m kvs)] (ELegacyDe (f_type f) (EGet data_var k) e0) =
      match g (f_type f) (entry kvs k) with Raise XSkip => eval P W (run n') (top_ctx P d t ro dn) [("data", VMap m kvs)] e0 | r => r end).
    { cbn [eval]. change (x_g (top_ctx P d t ro dn)) with (de_globals P d). rewrite passed_de by assumption. cbn [bind].
      match goal with |- bind ?x _ = _ => assert (EX : x = Ok (entry kvs k)) end.
      { change (eval P W (run n') (top_ctx P d t ro dn) [("data", VMap m kvs)] (EGet data_var k) = Ok (entry kvs k)). rewrite eval_get. unfold entry. now destruct (skey P kvs k). }
      rewrite EX. cbn [bind]. change (c_deserializer (x_cls (top_ctx P d t ro dn))) with (c_deserializer d). rewrite HG. reflexivity. }
    rewrite LG in V2. destruct (g (f_type f) (entry kvs k)) as [z|ex|]; [left; exact V2| |discriminate].
    destruct ex; try discriminate. right. split; [reflexivity|]. intros MD.
    rewrite de_ty_eq in E0. change (d_class_de cfg') with (@None clsde) in E0. rewrite HN2 in E0.
    change (da_deser (fieldarg d f data_var)) with (match f_deserializer f with None => None | Some FDefault => Some None | Some (FFun _) => Some (Some (mangle (f_name f) "deserializer")) end) in E0.
    rewrite FD in E0. unfold de_rest in E0.
    assert (E1 : (e1 <- de_gcore P W cfg' (fieldarg d f data_var) (f_type f) ;; de_default P W (fieldarg d f data_var) (f_type f) e1) = Ok e0).
    { destruct (f_type f); try contradiction; exact E0. }
    clear E0. inv_bind E1. rename a into e1.
    assert (SU : d_suppress cfg' = negb (coerces d)) by (cbn [cfg' d_suppress de_cfg]; unfold coerces; now destruct (c_check d)).
    assert (PD : prim_data W (fieldarg d f data_var) (f_type f) = da_data W (fieldarg d f data_var) (f_type f)).
    { unfold prim_data. change (da_alias (fieldarg d f data_var)) with (f_alias f). now rewrite AL. }
    assert (DK : da_data W (fieldarg d f data_var) (f_type f) = Ok (EKey data_var k)).
    { destruct (passed_data _ (fieldarg d f data_var) _ _ PT FL PD Hb) as (dat & DK). rewrite DK. unfold da_data in DK. cbn [fieldarg field_arg da_inner da_iter] in DK. inv_bind DK.
      change (da_key W (fieldarg d f data_var) = Ok a) in Hb0. pose proof (key_wire _ _ _ _ _ Hb0) as KW. rewrite WN in KW. injection KW as <-.
      rewrite <- DK. destruct (f_type f); try contradiction; reflexivity. }
    assert (PK : prim_data W (fieldarg d f data_var) (f_type f) = Ok (EKey data_var k)) by now rewrite PD.
    assert (KN : first_key P kvs (key_names W d f) = skey P kvs k).
    { unfold key_names. rewrite WN, AL. cbn [first_key]. now destruct (skey P kvs k). }
    destruct (skey P kvs k) as [x|] eqn:SX.
    - rewrite (default_leaf P W d f e1 e0 m kvs x _ _ (or_introl AL) FL KN E1) in V2.
      eapply (passed_entry d cfg' (fieldarg d f data_var) (f_type f) n' (top_ctx P d t ro dn)); eauto.
      + now apply passed_de.
      + destruct HT as (? & _ & G & _). now apply get_class_self in G.
      + eapply prim_leaf; eauto. now left.
    - destruct (f_default f) as [df|] eqn:DF.
      + assert (DD : da_default (fieldarg d f data_var) = true) by (cbn; now rewrite DF).
        destruct (default_inv P W (fieldarg d f data_var) _ _ _ eq_refl FL DD E1) as (y & Y & ->).
        assert (EX := eval_exists P W d f y (run n') (top_ctx P d t ro dn) m kvs (or_introl AL) Y). rewrite KN in EX. cbn [has_some] in EX.
        rewrite (eval_guarded _ _ _ _ _ _ _ _ _ _ (G_once _ _ _) EX) in V2.
        change (da_name (fieldarg d f data_var)) with (f_name f) in V2.
        rewrite (default_found d (top_ctx P d t ro dn) f eq_refl (proj2 HD) Hf) in V2. destruct (dflt f); congruence.
      + exfalso. unfold de_default in E1. cbn [fieldarg field_arg da_default] in E1. rewrite DF in E1. cbn [has_some andb] in E1. injection E1 as <-.
        assert (X : eval P W (run n') (top_ctx P d t ro dn) [("data", VMap m kvs)] (EKey data_var k) = Raise XKey).
        { rewrite eval_key. cbn [getitem]. unfold skey in SX. now rewrite SX, MD. }
        exact (passed_missing cfg' (fieldarg d f data_var) (f_type f) _ _ _ e1 _ XKey v PT FL PK DK Hb X V2).
  Qed.
End Legacy.

Module MoreEx.
  (** C54 *)
  Definition form := match to_tuple TripEx.p' TripEx.w [] 20 TripEx.bx' None (Some false) (Some true) false with Ok x => x | _ => VNone end.
  Definition J : codec := mkCodec (fun x => if val_eqb x form then Ok "doc" else Raise XType)
                                  (fun s => if String.eqb s "doc" then Ok form else Raise XValue).
  Lemma J_law : codec_law false false (Some KTuple) J.
  Proof.
    intros x s. cbn [dumps J]. destruct (val_eqb x form) eqn:E; [|discriminate]. intros Es. injection Es as <-. apply val_eqb_eq in E. subst x.
    exists form. split; [reflexivity|]. now apply N_same.
  Qed.
  (** The code in one byte, then the data *)
  Definition E : ext_codec := mkExtCodec
    (fun z s => if (0 <=? z)%Z && (z <? 128)%Z then Ok (String (ascii_of_N (Z.to_N z)) s) else Raise XValue)
    (fun s => match s with String a r => if (N_of_ascii a <? 128)%N then Ok (Some (Z.of_N (N_of_ascii a), r)) else Ok None | _ => Raise XValue end).
  Lemma E_law : ext_law E.
  Proof.
    intros z s y. cbn [ext_dumps ext_loads E]. destruct ((0 <=? z)%Z && (z <? 128)%Z) eqn:B; [|discriminate]. intros Q. injection Q as <-.
    apply andb_prop in B as [B1 B2]. apply Z.leb_le in B1. apply Z.ltb_lt in B2. rewrite N_ascii_embedding by lia.
    assert (LT : (Z.to_N z <? 128)%N = true) by (apply N.ltb_lt; lia). rewrite LT. now rewrite Z2N.id.
  Qed.
  Example C54_ex : exists x N, forall n, N <= n ->
    to_msgpack_ext TripEx.p' TripEx.w [] J E n TripEx.bx' None false [("Leaf", 3%Z); ("Box", 7%Z)] = (s <- dumps J x ;; ext_dumps E 7 s) /\
    forall y, to_msgpack_ext TripEx.p' TripEx.w [] J E n TripEx.bx' None false [("Leaf", 3%Z); ("Box", 7%Z)] = Ok y ->
      from_msgpack_ext TripEx.p' TripEx.w [] J E n (TagExternal, TClass "Leaf") y false
        [(7%Z, (TagExternal, TClass "Box")); (3%Z, (TagExternal, TClass "Leaf"))] = Ok TripEx.bx'.
  Proof.
    apply (C54_round_trip TripEx.p' TripEx.w [] eq_refl eq_refl J E "Box" TripEx.box _ None _ TagExternal); auto using J_law, E_law.
    - apply (wtb_ok TripEx.p' TripEx.w false _ _ (robust KTuple) TripEx.frag') with (n := 20);
        [|intros v; apply (robust_survives _ _ _ _ v (le_n _))|vm_compute; reflexivity].
      intros d Hd _. revert d Hd. apply Forall_forall. cbn. repeat (apply Forall_cons; [repeat constructor|]). constructor.
    - exact I.
    - split; [repeat constructor; simpl; intuition discriminate|simpl; auto].
    - split; [repeat constructor; simpl; intuition discriminate|simpl; auto].
  Qed.
  Example C54_run : to_msgpack_ext TripEx.p' TripEx.w [] J E 20 TripEx.bx' None false [("Leaf", 3%Z); ("Box", 65%Z)] = Ok "Adoc".
  Proof. vm_compute. reflexivity. Qed.
  Example C54_no_code_ex : exists m, to_msgpack_ext TripEx.p' TripEx.w [] J E 20 TripEx.bx' None false [("Leaf", 3%Z)] = Raise (XSerde m).
  Proof. apply C54_no_code. simpl. intuition discriminate. Qed.
  Example C54_no_type_ex : exists m, from_msgpack_ext TripEx.p' TripEx.w [] J E 20 (TagExternal, TClass "Box") "Adoc" false
    [(3%Z, (TagExternal, TClass "Box"))] = Raise (XSerde m).
  Proof. apply (C54_no_type _ _ _ J E 20 _ false _ "Adoc" 65%Z "doc"); [reflexivity|]. simpl. intuition discriminate. Qed.

  (** C55 *)
  Definition bad1 := cls "Bad1" [fld "i" TInt; flat (fld "l" (TList LList TInt))].
  Definition bad2 := cls "Bad2" [with_skip false false true (fld "i" TInt)].
  Definition bad := prog [bad1; bad2] [].
  Lemma bad1_misused : misused (flat (fld "l" (TList LList TInt))).
  Proof. left. split; [reflexivity|]. intros [[c E]|[[c E]|[[k [_ E]]|[k E]]]]; discriminate E. Qed.
  Lemma bad2_misused : misused (with_skip false false true (fld "i" TInt)).
  Proof. right. repeat split. Qed.
  Example C55_to_ex : (exists m, to_dict bad W0 [] 2 (VObj "Bad1" [("i", VInt 1); ("l", vlist [])]) None None None false = Raise (XSerde m)) /\
    (exists m, to_tuple bad W0 [] 2 (VObj "Bad1" [("i", VInt 1); ("l", vlist [])]) None None None false = Raise (XSerde m)).
  Proof.
    apply (C55_to bad W0 [] 0 "Bad1" bad1 _ None None None false (flat (fld "l" (TList LList TInt)))); auto; try exact I.
    - right; now left.
    - exact bad1_misused.
    - intros f r [<-|[<-|[]]]; discriminate.
  Qed.
  Example C55_from_ex : (exists m, from_dict bad W0 [] 2 (TagExternal, TClass "Bad2") (dict [("i", VInt 1)]) None None = Raise (XSerde m)) /\
    (exists m, from_tuple bad W0 [] 2 (TagExternal, TClass "Bad2") (dict [("i", VInt 1)]) None None = Raise (XSerde m)).
  Proof.
    apply (C55_from bad W0 [] 0 TagExternal (TClass "Bad2") bad2 _ None None (with_skip false false true (fld "i" TInt))).
    - exists "Bad2". repeat split.
    - now left.
    - exact bad2_misused.
    - intros f r [<-|[]]; discriminate.
    - reflexivity.
  Qed.

  (** C56 *)
  Definition vcls (n : string) (fs : list fielddef) (vars : list (string * pytype * pyval)) (deny : bool) : classdef :=
    {| c_id := n; c_name := n; c_fields := fs;
       c_mro := []; c_rename_all := Some "pascalcase"; c_reuse := true; c_conv := false;
       c_skip_if_default := false; c_skip_if_none := false; c_serializer := None; c_deserializer := None;
       c_tagging := TagExternal; c_check := TcStrict; c_ser_class_var := true; c_class_vars := vars;
       c_transparent := false; c_class_ser := None; c_class_de := None; c_deny := deny;
       c_tvars := None; c_post := fun o => Ok o; c_hashable := false |}.
  Definition V := vcls "V" [fld "i" TInt] [("n", TInt, VInt 7); ("tags", TSet SkSet TString, VSeq KSet [VStr "a"; VStr "b"])] true.
  Definition U := vcls "U" [fld "i" TInt] [("u", TUnion [TInt; TString], VInt 7)] false.
  Definition vp := prog [V; U] [].
  Definition v1 := VObj "V" [("i", VInt 1)].
  Definition v1_form := dict [("I", VInt 1); ("N", VInt 7); ("Tags", vlist [VStr "a"; VStr "b"])].
  Lemma V_names : names_ok vp V.
  Proof. apply (names_okb_ok vp V [TClass "V"; TInt; TString]); reflexivity. Qed.
  Example v1_run : to_dict vp W0 [] 5 v1 None None (Some true) false = Ok v1_form.
  Proof. vm_compute. reflexivity. Qed.
  Example C56_ex : exists kvs z, v1_form = VMap MDict kvs /\
    Wire vp W0 true true false true TagExternal (VSeq KSet [VStr "a"; VStr "b"]) (TSet SkSet TString) z /\ skey vp kvs "Tags" = Some z.
  Proof.
    apply (C56_written_partial vp W0 [] eq_refl false (fun _ => True) (fun v => plain v = true) 5 "V" V [("i", VInt 1)] None None (Some true) v1_form "tags"); auto; try reflexivity.
    - exact V_names.
    - now apply (unions_okb_ok vp V [TClass "V"; TInt; TString]).
    - now apply (literals_okb_ok vp V [TClass "V"; TInt; TString]).
    - right; now left.
    - repeat constructor; simpl; intuition discriminate.
    - repeat constructor; simpl; intuition discriminate.
    - intros u S. inversion S as [| | |? ? ? S'| | | | | | |]; subst; [discriminate|]. inversion S'; subst. discriminate.
    - split; [reflexivity|exact I].
    - apply (wt_set vp W0 false (fun _ => True) (fun v => plain v = true) SkSet); repeat constructor.
  Qed.

  (** Dataclasses and unions that occur in fields too *)
  Definition M := cls "M" [fld "k" TInt].
  Definition X := vcls "X" [fld "m" (TOpt (TClass "M")); fld "w" (TUnion [TInt; TString])]
    [("ms", TList LList (TClass "M"), vlist [VObj "M" [("k", VInt 3)]]); ("us", TDict DkDict TString (TUnion [TInt; TString]), dict [("a", VStr "b")])] false.
  Definition xp := prog [M; X] [].
  Definition x1_form := dict [("M", VNone); ("W", VInt 1); ("Ms", vlist [dict [("k", VInt 3)]]); ("Us", dict [("a", VStr "b")])].
  Definition x_types := [TClass "X"; TOpt (TClass "M"); TClass "M"; TInt; TUnion [TInt; TString]; TString; TNone].
  Example x1_run : to_dict xp W0 [] 8 (VObj "X" [("m", VNone); ("w", VInt 1)]) None None None false = Ok x1_form.
  Proof. vm_compute. reflexivity. Qed.
  Example C56_named_ex : exists kvs z, x1_form = VMap MDict kvs /\
    Wire xp W0 true false false true TagExternal (vlist [VObj "M" [("k", VInt 3)]]) (TList LList (TClass "M")) z /\ skey xp kvs "Ms" = Some z.
  Proof.
    apply (C56_written_partial xp W0 [] eq_refl false (fun _ => True) (fun v => plain v = true) 8 "X" X [("m", VNone); ("w", VInt 1)] None None None x1_form "ms"); auto; try reflexivity.
    - apply (names_okb_ok xp X x_types); reflexivity.
    - now apply (unions_okb_ok xp X x_types).
    - now apply (literals_okb_ok xp X x_types).
    - now left.
    - repeat constructor; simpl; intuition discriminate.
    - repeat constructor; simpl; intuition discriminate.
    - intros u S. inversion S as [|?|? ? ? S'| | | | | | | |]; subst; [discriminate|]. intros _. exists (fld "m" (TOpt (TClass "M"))).
      split; [now left|]. split; [reflexivity|]. split; [|eapply sub_union; [now left|exact S']]. now apply tyokb_ok.
    - apply wt_list. constructor; [|constructor]. apply (wt_obj xp W0 false (fun _ => True) (fun v => plain v = true) "M" M); [reflexivity| |exact I| |reflexivity].
      + apply (frag_classb_ok xp W0 1 M). vm_compute. reflexivity.
      + constructor; [|constructor]. split; [reflexivity|]. split; [intros _; now constructor|]. repeat split; try discriminate. intros _ N. now elim N.
  Qed.

  (** C57 *)
  Definition lcls (n : string) (fs : list fielddef) (ser de : option (pytype -> pyval -> res pyval)) : classdef :=
    {| c_id := n; c_name := n; c_fields := fs;
       c_mro := []; c_rename_all := None; c_reuse := false; c_conv := false;
       c_skip_if_default := false; c_skip_if_none := false; c_serializer := ser; c_deserializer := de;
       c_tagging := TagExternal; c_check := TcStrict; c_ser_class_var := false; c_class_vars := [];
       c_transparent := false; c_class_ser := None; c_class_de := None; c_deny := false;
       c_tvars := None; c_post := fun o => Ok o; c_hashable := false |}.
  (** Dates are written in a form of their own, and None stands for no date. *)
  Definition lser (t : pytype) (v : pyval) : res pyval :=
    match t, v with TDate "datetime", VDate k s => Ok (VStr (String.append "@" s)) | _, _ => Raise XSkip end.
  Definition lde (t : pytype) (v : pyval) : res pyval :=
    match t, v with
    | TDate "datetime", VStr (String _ s) => Ok (VDate "datetime" s)
    | TDate "datetime", VNone => Ok (VDate "datetime" "never")
    | _, _ => Raise XSkip
    end.
  Definition fd := fld "at" (TDate "datetime").
  Definition fi := with_default (VInt 4) (fld "i" TInt).
  Definition L := lcls "L" [fd; fi] (Some lser) (Some lde).
  Definition lp := prog [L] [].
  Definition l1 := VObj "L" [("at", VDate "datetime" "2024"); ("i", VInt 1)].
  Lemma L_names : names_ok lp L.
  Proof. apply (names_okb_ok lp L [TClass "L"; TDate "datetime"; TInt]); reflexivity. Qed.
  Lemma L_shallow : shallow L.
  Proof.
    repeat split; try reflexivity.
    - repeat constructor; simpl; intuition discriminate.
    - intros f [<-|[<-|[]]]; now left.
  Qed.
  Example l1_run : to_dict lp W0 [] 9 l1 None None None false = Ok (dict [("at", VStr "@2024"); ("i", VInt 1)]).
  Proof. vm_compute. reflexivity. Qed.
  Example C57_serializer_ex : exists kvs a v, dict [("at", VStr "@2024"); ("i", VInt 1)] = VMap MDict kvs /\ getattr lp l1 "i" = Ok a /\
    (lser TInt a = Ok v \/ lser TInt a = Raise XSkip /\ v = a) /\
    (false = false \/ v <> VNone -> skey lp kvs "i" = Some v).
  Proof.
    apply (C57_serializer lp W0 [] 9 "L" L _ None None None false _ fi "i" lser eq_refl L_shallow); auto; try reflexivity.
    - constructor; [intros [E|[]]; discriminate|constructor; [intros []|constructor]].
    - exact L_names.
    - right; now left.
    - repeat split.
    - constructor.
  Qed.
  Example l2_run : from_dict lp W0 [] 9 (TagExternal, TClass "L") (dict [("i", VInt 2)]) None None
    = Ok (VObj "L" [("at", VDate "datetime" "never"); ("i", VInt 2)]).
  Proof. vm_compute. reflexivity. Qed.
  Example C57_deserializer_ex : exists attrs v, Ok (VObj "L" attrs) = Ok (VObj "L" [("at", VDate "datetime" "never"); ("i", VInt 2)]) /\
    slookup "at" attrs = Some v /\
    (lde (TDate "datetime") VNone = Ok v \/ lde (TDate "datetime") VNone = Raise XSkip /\
      (MDict = MDict -> @None (res pyval) = Some (Ok v))).
  Proof.
    apply (C57_deserializer lp W0 [] 9 TagExternal (TClass "L") L MDict [(VStr "i", VInt 2)] None None _ fd lde "at"); auto; try reflexivity.
    - exists "L". repeat split.
    - split; [reflexivity|]. repeat constructor; simpl; intuition discriminate.
    - exact L_names.
    - now left.
    - constructor.
  Qed.
  Example C57_skipped_ex : exists attrs v, Ok (VObj "L" attrs) = Ok (VObj "L" [("at", VDate "datetime" "never"); ("i", VInt 2)]) /\
    slookup "i" attrs = Some v /\
    (lde TInt (VInt 2) = Ok v \/ lde TInt (VInt 2) = Raise XSkip /\ (MDict = MDict -> v = VInt 2)).
  Proof.
    apply (C57_deserializer lp W0 [] 9 TagExternal (TClass "L") L MDict [(VStr "i", VInt 2)] None None _ fi lde "i"); auto; try reflexivity.
    - exists "L". repeat split.
    - split; [reflexivity|]. repeat constructor; simpl; intuition discriminate.
    - exact L_names.
    - right; now left.
    - constructor.
  Qed.
End MoreEx.

(** A class variable annotated with a union cannot be written. *)
Theorem C56_union_refuted : exists P c d attrs m,
  get_class P c = Some d /\ c_ser_class_var d = true /\ c_class_vars d = [("u", TUnion [TInt; TString], VInt 7)] /\
  (forall n, 9 <= n -> to_dict P W0 [] n (VObj c attrs) None None None false = Raise (XSerde m)).
Proof.
  exists MoreEx.vp, "U", MoreEx.U, [("i", VInt 1)]. eexists. split; [reflexivity|]. split; [reflexivity|]. split; [reflexivity|].
  intros n Hn. apply (run_mono MoreEx.vp W0 [] 9 n); [exact Hn|vm_compute; reflexivity|discriminate].
Qed.

(** With deny_unknown_fields, the class does not read what it writes: class variables count as unknown. *)
Theorem C56_deny_refuted : exists P c attrs x m,
  to_dict P W0 [] 9 (VObj c attrs) None None None false = Ok x /\ from_dict P W0 [] 9 (TagExternal, TClass c) x None None = Raise (XSerde m).
Proof. exists MoreEx.vp, "V", [("i", VInt 1)]. do 2 eexists. split; vm_compute; reflexivity. Qed.

Print Assumptions C54_round_trip.
Print Assumptions C54_no_code.
Print Assumptions C54_no_type.
Print Assumptions C55_to.
Print Assumptions C55_from.
Print Assumptions C56_written_partial.
Print Assumptions C56_union_refuted.
Print Assumptions C56_deny_refuted.
Print Assumptions C57_serializer.
Print Assumptions C57_deserializer.
