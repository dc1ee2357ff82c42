(** Serializing a well typed value succeeds and yields its [Wire] form. *)
From Coq Require Import String List ZArith Bool Ascii Lia.
From Verif Require Import Base PyVal PyType Program Compat Syntax SeRender DeRender Eval Facts Mono Spec Cover Walk.
Import ListNotations.
Open Scope string_scope.
Open Scope list_scope.

(** The entry of a field is written or left out. *)
Lemma rule_out (r : option (res bool)) (skip : bool) k (x : pyval) (out : list (pyval * pyval)) :
  match r with
  | Some r => exists b, r = Ok b /\ out = if (b : bool) then [] else [(VStr k, x)]
  | None => skip = true /\ x = VNone /\ out = [] \/ (skip = false \/ x <> VNone) /\ out = [(VStr k, x)]
  end -> out = [] \/ out = [(VStr k, x)].
Proof. destruct r as [r|]; [intros [[|] [_ ->]]; auto|]. intros [[_ [_ ->]]|[_ ->]]; auto. Qed.

(** * Containers of distinct elements *)
Section Distinct.
  Variable P : program.
  Notation es := (enum_scalar P).

  Lemma dget_distinct l k : Forall (fun x => eqv P (fst x) k = false) l -> dget es l k = None.
  Proof.
    induction l as [|[a b] l IH]; simpl; intros F; [reflexivity|].
    inversion F; subst. simpl in *. unfold eqv in *. rewrite H1. auto.
  Qed.

  Lemma mk_map_distinct_acc l : forall acc,
    distinct P (map fst (acc ++ l)) -> forallb (hashable P) (map fst l) = true ->
    foldM (fun acc kv => if hashable P (fst kv) then Ok (dset es acc (fst kv) (snd kv)) else Raise XType) l acc = Ok (acc ++ l).
  Proof.
    induction l as [|[k v] l IH]; simpl; intros acc D H.
    - now rewrite app_nil_r.
    - apply andb_prop in H as [H1 H2]. rewrite H1. simpl.
      assert (E : dget es acc k = None).
      { apply dget_distinct. clear -D. induction acc as [|[a b] acc IH]; simpl in *; constructor.
        - inversion D; subst. rewrite Forall_forall in H1. apply H1. rewrite map_app. apply in_or_app; right; now left.
        - apply IH. now inversion D. }
      rewrite dset_fresh by exact E. rewrite IH; [|now rewrite <- app_assoc|assumption].
      now rewrite <- app_assoc.
  Qed.
  Lemma mk_map_distinct l : distinct P (map fst l) -> forallb (hashable P) (map fst l) = true -> mk_map P l = Ok l.
  Proof. intros. unfold mk_map. now rewrite mk_map_distinct_acc. Qed.

  Lemma dedup_distinct l : forall acc, distinct P (acc ++ l) -> dedup es acc l = acc ++ l.
  Proof.
    induction l as [|x l IH]; simpl; intros acc D; [now rewrite app_nil_r|].
    assert (E : vmem es x acc = false).
    { unfold vmem. apply not_true_is_false. intros H. apply existsb_exists in H as [y [Hy E]].
      clear IH. induction acc; simpl in *; [contradiction|]. inversion D; subst.
      destruct Hy as [->|Hy]; [|now apply IHacc].
      rewrite Forall_forall in H1. unfold eqv in H1. rewrite H1 in E; [discriminate|].
      apply in_or_app; right; now left. }
    rewrite E. rewrite IH; rewrite <- app_assoc; auto.
  Qed.
  Lemma mk_seq_distinct k l : distinct P l -> forallb (hashable P) l = true -> mk_seq P k l = Ok (VSeq k l).
  Proof.
    intros D H. unfold mk_seq. destruct (is_setkind k); [|reflexivity].
    rewrite H. now rewrite dedup_distinct.
  Qed.
  Lemma mk_seq_plain k l : is_setkind k = false -> mk_seq P k l = Ok (VSeq k l).
  Proof. unfold mk_seq. now intros ->. Qed.

  Lemma distinct_map {A B} (R : A -> B -> Prop) (f : A -> pyval) (g : B -> pyval) l l' :
    Forall2 R l l' ->
    (forall a a' b b', In a l -> In a' l -> R a b -> R a' b' -> eqv P (f a) (f a') = false -> eqv P (g b) (g b') = false) ->
    distinct P (map f l) -> distinct P (map g l').
  Proof.
    unfold distinct. induction 1; simpl; intros HR D; inversion D; subst; constructor.
    - rewrite Forall_forall in *. intros z Hz. apply in_map_iff in Hz as [b [<- Hb]].
      destruct (Forall2_in_r _ _ _ _ H0 Hb) as [a [Ha Hab]].
      eapply HR; [left; reflexivity|right; exact Ha|eassumption|exact Hab|].
      apply H3. now apply in_map.
    - apply IHForall2; [|assumption]. intros a a2 b b2 Ha Ha2 Hb Hb2. apply (HR a a2 b b2); auto.
  Qed.
End Distinct.

(** * Rendering *)
Section Render.
  Variable P : program.
  Hypothesis NoSers : p_sers P = [].

  Definition se_plain (cfg : secfg) (nm co : bool) : Prop :=
    r_named cfg = nm /\ r_legacy cfg = false /\ r_class_ser cfg = None /\ (r_suppress cfg = false -> co = true).

  Lemma find_ser_none cfg t : r_class_ser cfg = None -> find_ser P (r_class_ser cfg) t = None.
  Proof. intros ->. unfold find_ser, class_sers. now rewrite NoSers. Qed.

  (** One level of [se_ty] without custom serializers. *)
  Definition se_simple (cfg : secfg) (var : expr) (t : pytype) : res expr :=
    let rec := se_ty P cfg false in
    let v := EVar "v" in
    match t with
    | TClass c => Ok (ESeFn var (r_named cfg))
    | TGen c _ => Ok (ESeFn var (r_named cfg))
    | TClassVar a => rec var a
    | TUnion l =>
        match opt_arg t with
        | Some a => e <- rec var a ;; Ok (EIf (ENotNone var) e ENone)
        | None => Ok (EUnionSe (union_func_name P "union_se" l) var)
        end
    | TList _ a => e <- rec v a ;; Ok (EComp KList e var)
    | TBare (BList LList) => Ok var
    | TBare (BList _) => Ok (EBuiltin BkList var)
    | TSet _ a => e <- rec v a ;; Ok (EIf EConv (EComp KList e var) (EComp KSet e var))
    | TBare (BSet _) => Ok (EIf EConv (EBuiltin BkList var) var)
    | TDeque a => e <- rec v a ;; Ok (EComp KList e var)
    | TBare BDeque => Ok (EBuiltin BkList var)
    | TCounter a => e <- rec (EVar "k") a ;; Ok (EMapComp e v var)
    | TBare BCounter => Ok (EBuiltin BkDict var)
    | TDict _ kt vt => ek <- rec (EVar "k") kt ;; ev <- rec v vt ;; Ok (EMapComp ek ev var)
    | TBare (BDict DkDefault) => Raise XIndex
    | TBare (BDict _) => Ok var
    | TTuple [] => Raise XSyntax
    | TTuple l => es <- mapMi_from (fun n a => rec (EIdx var n) a) 0 l ;; Ok (ETuple es)
    | TVarTuple a => e <- rec v a ;; Ok (EComp KTuple e var)
    | TBare BTuple => Ok var
    | TEnum _ => Ok (EEnumVal t var)
    | TPrim _ | TPrimSub _ _ | TNewType _ _ =>
        if r_suppress cfg then Ok var else Ok (ECoerce (r_name cfg) (show var) t var)
    | TStr _ => Ok (EIf EReuse var (EStr var))
    | TDate _ => Ok (EIf EReuse var (EIso var))
    | TNone => Ok ENone
    | TAny | TVar _ => Ok (EToObj var)
    | TLit _ => Ok var
    | TAlias _ a => rec var a
    | TOther _ => Raise (XSerde MUnsupported)
    end.

  Lemma bind_ret {A} (m : res A) : bind m (fun x => Ok x) = m.
  Proof. now destruct m. Qed.

  Lemma opt_arg_none l : is_opt (TUnion l) = false -> opt_arg (TUnion l) = None.
  Proof.
    destruct l as [|a [|b [|]]]; simpl; try reflexivity; destruct b; try reflexivity.
    intros H. apply negb_false_iff in H. now rewrite H.
  Qed.
  Lemma opt_arg_some a : is_none a = false -> opt_arg (TUnion [a; TNone]) = Some a.
  Proof. simpl. now intros ->. Qed.

  Lemma se_ty_simple cfg nm co var t : se_plain cfg nm co -> se_ty P cfg false var t = se_simple cfg var t.
  Proof.
    intros [_ [HL [HC _]]].
    assert (HW : forall av t v e, legacy_wrap cfg false av t v e = e) by (intros; unfold legacy_wrap; now rewrite HL).
    unfold se_simple. destruct t; cbn [se_ty]; rewrite (find_ser_none _ _ HC); rewrite ?HW, ?bind_ret; try reflexivity.
    - (* prim *) destruct (r_suppress cfg); simpl; now rewrite HW.
    - destruct (r_suppress cfg); simpl; now rewrite HW.
    - destruct (r_suppress cfg); simpl; now rewrite HW.
    - simpl bind. now rewrite HW.
    - simpl bind. now rewrite HW.
    - destruct (is_opt (TUnion l)) eqn:E.
      + destruct (opt_shape l E) as [a [-> Ha]]. rewrite opt_arg_some by exact Ha.
        destruct (se_ty P cfg false var a); simpl; now rewrite ?HW.
      + rewrite opt_arg_none by exact E. simpl bind. now rewrite HW.
    - destruct (se_ty P cfg false _ t); simpl; now rewrite ?HW.
    - destruct (se_ty P cfg false _ t); simpl; now rewrite ?HW.
    - destruct (se_ty P cfg false _ t); simpl; now rewrite ?HW.
    - destruct (se_ty P cfg false _ t); simpl; now rewrite ?HW.
    - destruct (se_ty P cfg false _ t1); simpl; try reflexivity.
      destruct (se_ty P cfg false _ t2); simpl; now rewrite ?HW.
    - destruct l as [|a l]; [reflexivity|].
      assert (E : forall l n, (fix go n l := match l with
                   | [] => Ok []
                   | a :: r => e <- se_ty P cfg false (EIdx var n) a ;; es <- go (S n) r ;; Ok (e :: es)
                   end) n l = mapMi_from (fun n a => se_ty P cfg false (EIdx var n) a) n l).
      { induction l0; intros; [reflexivity|]. simpl. now rewrite IHl0. }
      cbn [mapMi_from]. rewrite E. destruct (se_ty P cfg false (EIdx var 0) a); cbn [bind]; try reflexivity.
      destruct (mapMi_from _ 1 l); cbn [bind]; now rewrite ?HW.
    - destruct (se_ty P cfg false _ t); simpl; now rewrite ?HW.
    - destruct b as [[]|[]|[]| | |]; simpl bind; now rewrite ?HW.
    - simpl bind. now rewrite HW.
    - unfold se_class. rewrite (find_ser_none _ _ HC). now rewrite HW.
    - unfold se_class. rewrite (find_ser_none _ _ HC). now rewrite HW.
    - simpl bind. now rewrite HW.
    - simpl bind. now rewrite HW.
    - simpl bind. now rewrite HW.
    - simpl bind. now rewrite HW.
    - destruct (se_ty P cfg false var t); simpl; now rewrite ?HW.
    - destruct (se_ty P cfg false var t); simpl; now rewrite ?HW.
  Qed.

  Lemma mapMi_total {A B} (f : nat -> A -> res B) l : (forall n a, In a l -> exists b, f n a = Ok b) ->
    forall n, exists l', mapMi_from f n l = Ok l'.
  Proof.
    induction l; simpl; intros H n; [eauto|].
    destruct (H n a) as [b Hb]; [now left|]. destruct (IHl (fun n a Ha => H n a (or_intror Ha)) (S n)) as [l' Hl].
    rewrite Hb; simpl; rewrite Hl; simpl; eauto.
  Qed.

  Lemma tyok_tuple W tg co l : tyok P W tg co (TTuple l) -> l <> [] /\ Forall (tyok P W tg co) l.
  Proof.
    cbn [tyok]. intros [H1 H2]. split; [assumption|]. clear H1. induction l; constructor; tauto.
  Qed.
  Lemma tyok_union W tg co l : tyok P W tg co (TUnion l) -> is_opt (TUnion l) = false -> union_ok P W tg l.
  Proof.
    cbn [tyok]. destruct l as [|a [|b [|]]]; auto; destruct b; auto. cbn [is_opt]. intros H E.
    apply negb_false_iff in E. now rewrite E in H.
  Qed.
  Lemma tyok_opt W tg co a : tyok P W tg co (TUnion [a; TNone]) -> is_none a = false -> tyok P W tg co a.
  Proof. cbn [tyok]. intros H E. now rewrite E in H. Qed.

  Lemma se_ty_total W tg co cfg nm t : se_plain cfg nm co -> tyok P W tg co t -> forall var, exists e, se_ty P cfg false var t = Ok e.
  Proof.
    intros HP. induction t using pytype_ind'; intros T var; rewrite (se_ty_simple cfg nm co) by exact HP; unfold se_simple;
      cbn [tyok] in T; try (eexists; reflexivity); try contradiction; auto;
      try (destruct (IHt ltac:(tauto) (EVar "v")) as [e1 ->]; eexists; reflexivity).
    - destruct (r_suppress cfg); eauto.
    - destruct (r_suppress cfg); eauto.
    - destruct (r_suppress cfg); eauto.
    - destruct (is_opt (TUnion l)) eqn:E.
      + destruct (opt_shape l E) as [a [-> Ha]]. rewrite opt_arg_some by exact Ha. rewrite Ha in T.
        rewrite Forall_forall in H. destruct (H a (or_introl eq_refl) T var) as [e1 ->]. simpl; eauto.
      + rewrite opt_arg_none by exact E. eauto.
    - destruct (IHt ltac:(tauto) (EVar "k")) as [e1 ->]; eexists; reflexivity.
    - destruct (IHt1 ltac:(tauto) (EVar "k")) as [e1 ->].
      destruct (IHt2 ltac:(tauto) (EVar "v")) as [e2 ->]. simpl; eauto.
    - destruct (tyok_tuple _ _ _ _ T) as [T1 T2]. destruct l as [|a l]; [congruence|].
      destruct (mapMi_total (fun n a => se_ty P cfg false (EIdx var n) a) (a :: l)) with (n := 0) as [es Hes].
      { intros n b Hb. rewrite Forall_forall in H, T2. auto. }
      rewrite Hes. simpl; eauto.
    - destruct b as [[]|[]|[]| | |]; eauto. destruct T; congruence.
    - apply IHt; tauto.
  Qed.
End Render.

(** * Small facts about values *)
Lemma vsize_seq k l x : In x l -> vsize x < vsize (VSeq k l).
Proof.
  intros H. simpl. apply Nat.lt_succ_r. induction l; simpl in *; [contradiction|].
  destruct H as [->|H]; [lia|]. specialize (IHl H). lia.
Qed.
Lemma vsize_map k l kv : In kv l -> vsize (fst kv) < vsize (VMap k l) /\ vsize (snd kv) < vsize (VMap k l).
Proof.
  intros H. simpl. rewrite !Nat.lt_succ_r. induction l; simpl in *; [contradiction|].
  destruct H as [->|H]; [lia|]. specialize (IHl H). lia.
Qed.
Lemma vsize_obj c l nv : In nv l -> vsize (snd nv) < vsize (VObj c l).
Proof.
  intros H. simpl. apply Nat.lt_succ_r. induction l; simpl in *; [contradiction|].
  destruct H as [->|H]; [lia|]. specialize (IHl H). lia.
Qed.

Lemma Forall_choice {A B} (R : A -> B -> Prop) l : Forall (fun a => exists b, R a b) l -> exists l', Forall2 R l l'.
Proof. induction 1 as [|a l [b Hb] _ [l' IH]]; eauto. Qed.

Lemma Forall2_and {A B} (R R' : A -> B -> Prop) l l' : Forall2 R l l' -> Forall2 R' l l' -> Forall2 (fun a b => R a b /\ R' a b) l l'.
Proof. intros H; induction H; intros H'; inversion H'; subst; constructor; auto. Qed.

Lemma Forall2_Forall2_l {A B} (R : A -> B -> Prop) (Q : A -> Prop) l l' : Forall Q l -> Forall2 R l l' -> Forall2 (fun a b => Q a /\ R a b) l l'.
Proof. intros F H; induction H; inversion F; subst; constructor; auto. Qed.

Lemma prim_val_ctor P W p v : prim_val p v = true -> prim_ctor P W p v = Ok v.
Proof. destruct p, v; simpl; intros; try discriminate; auto. destruct b; reflexivity. Qed.
Lemma prim_val_scalar p v : prim_val p v = true -> scalar_val v = true.
Proof. destruct p, v; simpl; intros; try discriminate; auto. Qed.
Lemma prim_val_not_none p v : prim_val p v = true -> v <> VNone.
Proof. destruct p, v; simpl; intros; try discriminate; auto. Qed.
Lemma scalar_val_hashable P v : scalar_val v = true -> hashable P v = true.
Proof. destruct v; simpl; intros; try discriminate; auto. Qed.
Lemma plain_hashable_scalar v : scalar_val v = true -> plain v = true.
Proof. destruct v; simpl; intros; try discriminate; auto. Qed.

Lemma Forall3_Forall2 {A B C} (R : A -> B -> C -> Prop) la lb lc : Forall3 R la lb lc -> Forall2 (fun a b => exists c, R a b c) la lb.
Proof. induction 1; constructor; eauto. Qed.

Section SeRT.
  Variables (P : program) (W : world) (K : list (tagging * pytype)).
  Hypothesis NoSers : p_sers P = [].
  Variables (reuse cv skip : bool).
  Variables (sk : bool) (Q : classdef -> Prop) (raw : pyval -> Prop).
  Notation WT := (wt P W sk Q raw).
  Notation WIRE := (Wire P W reuse cv skip).
  Notation FWIRE := (FWire P W reuse cv skip).
  Notation run := (run P W K).
  Notation es := (enum_scalar P).
  Notation ctxof d fns := (se_ctx P d fns reuse cv skip).

  Lemma truthy_bool b : truthy es (VBool b) = b.
  Proof. now destruct b. Qed.

  (** ** Keys of mappings and elements of sets *)
  Lemma enum_eq_self c m x : enum_wf P c -> enum_member P c m = Some x -> eqv P (VEnum c m) (VEnum c m) = true.
  Proof.
    intros [e [He [_ [Hs _]]]] Hm. unfold enum_member in Hm. rewrite He in Hm.
    apply slookup_In in Hm as Hin. destruct (Hs _ _ Hin) as [S1 S2].
    unfold eqv. simpl. assert (E : es c m = match e_mixin e with Some _ => base_scalar x | None => None end).
    { unfold enum_scalar. rewrite He, Hm. destruct (e_mixin e); reflexivity. }
    rewrite E. destruct (e_mixin e).
    - unfold eqv in S2. destruct x; try discriminate S1; simpl in *; auto using String.eqb_refl.
      now rewrite !String.eqb_refl.
    - now rewrite !String.eqb_refl.
  Qed.

  Lemma wire_enum_inv nm tg c v x : WIRE nm tg v (TEnum c) x -> exists m, v = VEnum c m /\ enum_member P c m = Some x.
  Proof. intros H; inversion H; subst; eauto. Qed.

  Lemma wire_key nm tg co t x y x' y' :
    tyok P W tg co t -> keyty t = true -> WT x t -> WT y t -> WIRE nm tg x t x' -> WIRE nm tg y t y' ->
    eqv P x y = false -> eqv P x' y' = false.
  Proof.
    revert x y. induction t; intros x y T KT Wx Wy X Y E; try discriminate KT;
      try (inversion X; inversion Y; subst; exact E).
    - apply wire_enum_inv in X as [m1 [-> M1]]. apply wire_enum_inv in Y as [m2 [-> M2]].
      apply not_true_is_false. intros Heq.
      assert (m1 = m2).
      { destruct T as [e [He [ND [Hs Hd]]]].
        unfold enum_member in M1, M2. rewrite He in M1, M2. apply slookup_In in M1, M2. eauto. }
      subst. rewrite (enum_eq_self _ _ _ T M1) in E. discriminate.
    - inversion X; inversion Y; subst. destruct reuse; [exact E|].
      unfold eqv in *. simpl in *. now rewrite String.eqb_refl in E.
    - inversion X; inversion Y; subst. destruct reuse; [exact E|].
      unfold eqv in *. simpl in *. now rewrite String.eqb_refl in E.
    - inversion X; inversion Y; inversion Wx; inversion Wy; subst. apply (IHt x y); auto. now destruct T.
  Qed.

  Lemma wire_key_hashable nm tg co t x x' :
    tyok P W tg co t -> keyty t = true -> WT x t -> WIRE nm tg x t x' -> hashable P x' = true.
  Proof.
    revert x. induction t; intros x T KT Wx X; try discriminate KT; inversion Wx; inversion X; subst; eauto using scalar_val_hashable, prim_val_scalar.
    - apply wire_enum_inv in X as [m1 [E1 M1]]. destruct T as [e [He [ND [Hs Hd]]]].
      unfold enum_member in M1. rewrite He in M1. apply slookup_In in M1.
      apply scalar_val_hashable. now apply (Hs _ _ M1).
    - now destruct reuse.
    - now destruct reuse.
    - eapply IHt; eauto. now destruct T.
  Qed.

  (** ** Data without type *)
  Lemma plain_to_obj c0 : forall n v, vsize v <= n -> plain v = true ->
    forall nm r c s o, (o = None \/ o = Some (c0, TAny)) -> ev (fun n => run n (QToObj v nm r c s o) = Ok v).
  Proof.
    assert (FS : forall v, first_ser P v = None) by (intros; unfold first_ser; now rewrite NoSers).
    induction n; intros v Hn Hp nm r c s o Ho; [destruct v; simpl in Hn; lia|].
    assert (O1 : forall m, run (S m) (QToObj v nm r c s o) = catch (to_obj_body P W K (run m) v nm r c s None) (fun e => Raise (XSerde (MWrap e)))).
    { intros m. simpl. destruct Ho as [->| ->]; simpl; [reflexivity|]. destruct v; try discriminate Hp; reflexivity. }
    destruct v; try discriminate Hp.
    1-5: exists 1; intros [|m] Hm; [lia|]; rewrite O1; unfold to_obj_body; rewrite ?FS; reflexivity.
    - assert (HL : Forall (fun x => ev (fun n => run n (QToObj x nm r c s None) = Ok x)) l).
      { apply Forall_forall. intros x Hx. apply IHn; auto.
        - pose proof (vsize_seq k l x Hx). lia.
        - simpl in Hp. destruct k; try discriminate Hp; rewrite forallb_forall in Hp; auto. }
      apply ev_Forall in HL. apply ev_S in HL. eapply ev_mono; [exact HL|]. cbv beta. intros [|m] F; [contradiction|].
      rewrite O1. unfold to_obj_body. rewrite FS.
      assert (E : mapM (fun e => run m (QToObj e nm r c s None)) l = Ok l).
      { apply mapM_Ok. now apply Forall2_same. }
      destruct k; try discriminate Hp; simpl; rewrite E; reflexivity.
    - destruct k; try discriminate Hp.
      assert (HL : Forall (fun kv => ev (fun n => run n (QToObj (snd kv) nm r c s None) = Ok (snd kv))) l).
      { apply Forall_forall. intros x Hx. apply IHn; auto.
        - pose proof (vsize_map MDict l x Hx). lia.
        - simpl in Hp. rewrite forallb_forall in Hp. specialize (Hp x Hx). destruct x. now apply andb_prop in Hp as [_ Hp]. }
      apply ev_Forall in HL. apply ev_S in HL. eapply ev_mono; [exact HL|]. cbv beta. intros [|m] F; [contradiction|].
      rewrite O1. unfold to_obj_body. rewrite FS.
      assert (E : mapM (fun kv => x <- run m (QToObj (snd kv) nm r c s None) ;; Ok (fst kv, x)) l = Ok l).
      { apply mapM_Ok. apply Forall2_same. eapply Forall_impl; [|exact F]. intros [a b] Hab. simpl in *. now rewrite Hab. }
      simpl. rewrite E. reflexivity.
  Qed.

  (** ** Classes *)

  (** The skip predicate the generator finds for a field *)
  Definition sk_of (d : classdef) (f : fielddef) : option (string * skipfn) :=
    match field_skip (c_skip_if_default d) (c_skip_if_none d) f with Ok o => o | _ => None end.

  Lemma skip_ok_total d f : skip_ok d f -> field_skip (c_skip_if_default d) (c_skip_if_none d) f = Ok (sk_of d f).
  Proof.
    intros S. unfold sk_of.
    assert (E : exists o, field_skip (c_skip_if_default d) (c_skip_if_none d) f = Ok o); [|destruct E as [o ->]; reflexivity].
    unfold skip_ok, either in S. unfold field_skip, flag. destruct (match f_skip_if_default f with Some b => b | None => c_skip_if_default d end).
    - specialize (S eq_refl). unfold dflt in S. destruct (f_default f) as [[v|r]|]; cbn [bind].
      + destruct (f_skip_if f); [eauto|]. destruct (f_skip_if_false f); eauto.
      + destruct (S r eq_refl) as [v [-> _]]. cbn [bind]. destruct (f_skip_if f); [eauto|]. destruct (f_skip_if_false f); eauto.
      + destruct (f_skip_if f); [eauto|]. destruct (f_skip_if_false f); eauto.
    - cbn [bind]. destruct (f_skip_if f); [eauto|]. destruct (f_skip_if_false f); [eauto|]. destruct (match f_skip_if_none f with Some b => b | None => _ end); eauto.
  Qed.

  (** ... is the one of the specification *)
  Lemma sk_of_drops d f : skip_ok d f ->
    match sk_of d f with
    | Some (nm, p) => (exists s, (In s sufs /\ s <> "serializer") /\ nm = mangle (f_name f) s) /\ forall call x, drops P d f x = Some (run_skip P call p x)
    | None => no_skip P d f
    end.
  Proof.
    intros S. pose proof (skip_ok_total d f S) as E. unfold field_skip, flag in E. unfold no_skip, drops, either. unfold skip_ok, either in S.
    destruct (match f_skip_if_default f with Some b => b | None => c_skip_if_default d end).
    - specialize (S eq_refl). unfold dflt in *.
      assert (SU : forall s, In s ["skip_if"; "skip_if_false"; "skip_if_default"; "skip_if_none"] -> In s sufs /\ s <> "serializer") by (unfold sufs; simpl; intros s Hs; split; [tauto|]; intros ->; destruct Hs as [Hs|[Hs|[Hs|[Hs|[]]]]]; discriminate Hs).
      destruct (f_default f) as [[v|r]|]; cbn [bind] in E |- *.
      + destruct (f_skip_if f); [injection E as <-; split; [eexists; split; [|reflexivity]; apply SU; simpl; tauto|reflexivity]|].
        destruct (f_skip_if_false f); injection E as <-; (split; [eexists; split; [|reflexivity]; apply SU; simpl; tauto|]); [reflexivity|].
        destruct (S _ eq_refl) as [v' [E' N]]. injection E' as <-. intros call x. cbn [run_skip].
        destruct v; try reflexivity. exfalso. eapply N. reflexivity.
      + destruct (S r eq_refl) as [v [-> N]]. cbn [bind] in E |- *.
        destruct (f_skip_if f); [injection E as <-; split; [eexists; split; [|reflexivity]; apply SU; simpl; tauto|reflexivity]|].
        destruct (f_skip_if_false f); injection E as <-; (split; [eexists; split; [|reflexivity]; apply SU; simpl; tauto|]); [reflexivity|].
        intros call x. cbn [run_skip]. destruct v; try reflexivity. exfalso. eapply N. reflexivity.
      + destruct (f_skip_if f); [injection E as <-; split; [eexists; split; [|reflexivity]; apply SU; simpl; tauto|reflexivity]|].
        destruct (f_skip_if_false f); injection E as <-; (split; [eexists; split; [|reflexivity]; apply SU; simpl; tauto|reflexivity]).
    - cbn [bind] in E.
      assert (SU : forall s, In s ["skip_if"; "skip_if_false"; "skip_if_default"; "skip_if_none"] -> In s sufs /\ s <> "serializer") by (unfold sufs; simpl; intros s Hs; split; [tauto|]; intros ->; destruct Hs as [Hs|[Hs|[Hs|[Hs|[]]]]]; discriminate Hs).
      destruct (f_skip_if f); [injection E as <-; split; [eexists; split; [|reflexivity]; apply SU; simpl; tauto|reflexivity]|].
      destruct (f_skip_if_false f); [injection E as <-; split; [eexists; split; [|reflexivity]; apply SU; simpl; tauto|reflexivity]|].
      destruct (match f_skip_if_none f with Some b => b | None => c_skip_if_none d end); injection E as <-; [|reflexivity].
      split; [eexists; split; [|reflexivity]; apply SU; simpl; tauto|]. reflexivity.
  Qed.

  Lemma no_skip_sk d f : skip_ok d f -> no_skip P d f -> sk_of d f = None.
  Proof.
    intros S N. pose proof (sk_of_drops d f S) as D. destruct (sk_of d f) as [[nm p]|]; [|reflexivity].
    destruct D as [_ D]. specialize (D (run 0) VNone). rewrite N in D. discriminate.
  Qed.

  (** What the fields of a class of the fragment look like to the generator. *)
  Lemma sefields_ok d : Forall (fun f => field_ok P W d f /\ (f_flatten f = true -> is_class (f_type f) = true)) (c_fields d) ->
    sefields d false = Ok (map (fun f => (f, sk_of d f)) (c_fields d)).
  Proof.
    intros F. unfold sefields.
    assert (E : mapM (fun f => _ <- check_field f ;; s <- field_skip (c_skip_if_default d) (c_skip_if_none d) f ;; Ok (f, s)) (c_fields d)
              = Ok (map (fun f => (f, sk_of d f)) (c_fields d))).
    { apply mapM_all_Ok. intros f Hf. rewrite Forall_forall in F. destruct (F f Hf) as [(E1 & E2 & E4 & E8 & E9 & E10 & E11 & E12) E3].
      unfold check_field.
      assert (C1 : f_flatten f && negb (is_class (f_type f) || (match opt_arg (f_type f) with Some a => is_class a | None => false end) || is_flatten_dict (f_type f)) = false).
      { destruct (f_flatten f); [|reflexivity]. rewrite E3 by reflexivity. reflexivity. }
      rewrite C1.
      assert (C : f_skip_de f && f_init f && negb (match f_default f with Some _ => true | None => false end) && negb (f_skip f) = false).
      { destruct (f_skip_de f) eqn:D; [|reflexivity]. destruct (f_init f) eqn:I; [|reflexivity].
        destruct E12 as [v Hv]; [unfold read; rewrite I, D; simpl; now rewrite andb_false_r|].
        unfold dflt in Hv. destruct (f_default f); [reflexivity|discriminate]. }
      rewrite C. cbn [bind]. now rewrite (skip_ok_total d f E4). }
    rewrite E. simpl. now rewrite app_nil_r.
  Qed.

  Lemma frag_sefields d : frag_class P W d -> forall b, b = false -> sefields d b = Ok (map (fun f => (f, sk_of d f)) (c_fields d)).
  Proof.
    intros F b ->. apply sefields_ok. destruct F as [_ [_ [_ [_ [_ [_ [F _]]]]]]].
    eapply Forall_impl; [|exact F]. intros f [F1 F2]. split; [exact F1|]. intros E. destruct (F2 E) as [c [d' [T _]]]. now rewrite T.
  Qed.
  Lemma kid_sefields d d' : Forall (kid_field_ok P W d d') (c_fields d') -> sefields d' false = Ok (map (fun f => (f, None)) (c_fields d')).
  Proof.
    intros F. rewrite sefields_ok.
    - f_equal. apply map_ext_in. intros f Hf. rewrite Forall_forall in F. destruct (F f Hf) as ((_ & _ & S & _) & _ & _ & _ & _ & _ & _ & _ & N & _).
      now rewrite (no_skip_sk d' f S N).
    - eapply Forall_impl; [|exact F]. intros f (F1 & F2 & _). split; [exact F1|]. congruence.
  Qed.

  Lemma concat_nils {A B} (l : list A) : concat (map (fun _ => @nil B) l) = [].
  Proof. induction l; simpl; auto. Qed.

  Lemma kid_se_fns d d' : c_ser_class_var d' = false -> Forall (kid_field_ok P W d d') (c_fields d') -> forall n, se_fns P n d' = Ok [].
  Proof.
    intros CV F n. destruct n; cbn [se_fns]; rewrite CV, (kid_sefields d d' F); cbn [bind]; rewrite mapM_map;
      rewrite (mapM_all_Ok _ (fun _ => [])); cbn [bind]; try (now rewrite concat_nils);
      intros f Hf; rewrite Forall_forall in F; destruct (F f Hf) as (_ & E3 & _ & _ & _ & _ & _ & _ & _ & E1); cbn [fst snd]; rewrite E3, E1; reflexivity.
  Qed.

  Definition own_ser (f : fielddef) : list (string * gfun) :=
    match f_serializer f with
    | Some FDefault => [(mangle (f_name f) "serializer", GFun (fun _ => Ok VNone))]
    | Some (FFun g) => [(mangle (f_name f) "serializer", GFun g)]
    | None => []
    end.
  Definition own_skip (d : classdef) (f : fielddef) : list (string * gfun) :=
    match sk_of d f with Some (nm, p) => [(nm, GSkip p)] | None => [] end ++ own_ser f.
  Definition skip_fns (d : classdef) : list (string * gfun) := concat (map (own_skip d) (c_fields d)).

  Lemma frag_se_fns d : frag_class P W d -> forall n, 0 < n -> se_fns P n d = Ok (skip_fns d).
  Proof.
    intros F n Hn. pose proof F as F'. destruct F' as [_ [_ [_ [_ [Hcv [_ [FF _]]]]]]].
    destruct n; [lia|]; cbn [se_fns]; rewrite (frag_sefields d F _ Hcv); cbn [bind]; rewrite mapM_map;
      rewrite (mapM_all_Ok _ (own_skip d)); cbn [bind]; try reflexivity.
    intros f Hf; rewrite Forall_forall in FF; destruct (FF f Hf) as [_ E3]; cbn [fst snd]. fold (own_ser f). fold (own_skip d f).
    destruct (f_flatten f); [|reflexivity]. destruct (E3 eq_refl) as (c & d' & T & Hd' & _ & _ & _ & _ & _ & _ & _ & CV & _ & FK & _).
    rewrite T, Hd', (kid_se_fns d d' CV FK). cbn [bind]. now rewrite app_nil_r.
  Qed.

  Lemma skip_fns_inv d f s y : frag_class P W d -> In f (c_fields d) -> In s sufs -> In (mangle (f_name f) s, y) (skip_fns d) ->
    In (mangle (f_name f) s, y) (own_skip d f).
  Proof.
    intros F Hf Hs Hb. pose proof F as (_ & _ & _ & _ & _ & ND & FF & _). rewrite Forall_forall in FF.
    apply in_concat in Hb as [l [Hl Hb]]. apply in_map_iff in Hl as [g [<- Hg]].
    assert (NM : exists s', In s' sufs /\ mangle (f_name f) s = mangle (f_name g) s').
    { unfold own_skip in Hb. apply in_app_or in Hb as [Hb|Hb].
      - destruct (FF g Hg) as [(_ & _ & S & _) _]. pose proof (sk_of_drops d g S) as D. destruct (sk_of d g) as [[nm' p']|]; [|destruct Hb].
        destruct Hb as [Hb|[]]. injection Hb as -> _. destruct D as [[s' [[S1 _] S2]] _]. eauto.
      - unfold own_ser in Hb. exists "serializer". split; [unfold sufs; simpl; tauto|].
        destruct (f_serializer g) as [[|g']|]; [| |destruct Hb]; (destruct Hb as [Hb|[]]; injection Hb as Hb _; congruence). }
    destruct NM as [s' [S1 S2]]. destruct (mangle_inj _ _ _ _ Hs S1 S2) as [N _].
    assert (f = g) by (eapply same_field; eauto). now subst g.
  Qed.

  Lemma skip_fns_lookup d f nm p : frag_class P W d -> In f (c_fields d) -> sk_of d f = Some (nm, p) ->
    slookup nm (rev (skip_fns d)) = Some (GSkip p).
  Proof.
    intros F Hf E. pose proof F as (_ & _ & _ & _ & _ & ND & FF & _). rewrite Forall_forall in FF.
    destruct (FF f Hf) as [(_ & _ & S & _) _]. pose proof (sk_of_drops d f S) as D. rewrite E in D. destruct D as [[s [[S1 S3] ->]] _].
    apply slookup_functional.
    - rewrite <- in_rev. apply in_concat. exists (own_skip d f). split; [now apply in_map|]. unfold own_skip. rewrite E. now left.
    - intros b Hb. rewrite <- in_rev in Hb. apply (skip_fns_inv d f s b F Hf S1) in Hb. unfold own_skip in Hb. rewrite E in Hb.
      destruct Hb as [Hb|Hb]; [congruence|]. exfalso. apply S3. unfold own_ser in Hb.
      destruct (f_serializer f) as [[|g']|]; [| |destruct Hb]; (destruct Hb as [Hb|[]]; injection Hb as Hb _;
        symmetry in Hb; apply mangle_inj in Hb as [_ Hb]; [exact Hb|exact S1|unfold sufs; simpl; tauto]).
  Qed.

  Lemma ser_fns_lookup d f g : frag_class P W d -> In f (c_fields d) -> f_serializer f = Some (FFun g) ->
    slookup (mangle (f_name f) "serializer") (rev (skip_fns d)) = Some (GFun g).
  Proof.
    intros F Hf E. pose proof F as (_ & _ & _ & _ & _ & ND & FF & _). rewrite Forall_forall in FF.
    assert (SE : In "serializer" sufs) by (unfold sufs; simpl; tauto).
    apply slookup_functional.
    - rewrite <- in_rev. apply in_concat. exists (own_skip d f). split; [now apply in_map|]. unfold own_skip, own_ser. rewrite E. apply in_or_app. right. now left.
    - intros b Hb. rewrite <- in_rev in Hb. apply (skip_fns_inv d f _ b F Hf SE) in Hb. unfold own_skip, own_ser in Hb. rewrite E in Hb.
      apply in_app_or in Hb as [Hb|Hb].
      + destruct (FF f Hf) as [(_ & _ & S & _) _]. pose proof (sk_of_drops d f S) as D. destruct (sk_of d f) as [[nm p]|]; [|destruct Hb].
        destruct Hb as [Hb|[]]. injection Hb as Hb _. destruct D as [[s [[S1 S3] S2]] _]. exfalso. apply S3.
        assert (M : mangle (f_name f) "serializer" = mangle (f_name f) s) by congruence.
        apply mangle_inj in M as [_ M]; [congruence|exact SE|exact S1].
      + destruct Hb as [Hb|[]]. congruence.
  Qed.

  Lemma wire_conv d f k : case_known W d f -> wire_name W d f = Some k -> conv W (c_rename_all d) (f_name f) (f_rename f) = Ok k.
  Proof.
    unfold case_known, wire_name, conv. intros C H.
    destruct (c_rename_all d) as [[|a r]|]; cbn [String.eqb bind].
    - destruct (f_rename f) as [[|a r]|]; simpl in *; congruence.
    - destruct (w_case W (String a r) (f_name f)) eqn:E; [|congruence]. cbn [bind].
      destruct (f_rename f) as [[|? ?]|]; simpl in *; congruence.
    - destruct (f_rename f) as [[|? ?]|]; simpl in *; congruence.
  Qed.

  Definition sdok (d : classdef) : Prop := scope_ok P d /\ exists fns, se_fns P (class_fuel P) d = Ok fns.

  Lemma frag_sdok d : frag_class P W d -> sdok d.
  Proof.
    intros F. split; [|exists (skip_fns d); apply frag_se_fns; [assumption|unfold class_fuel; lia]].
    destruct F as (_ & _ & _ & _ & _ & _ & _ & _ & _ & _ & N & U & L & _). repeat split; assumption.
  Qed.

  (** [v] is serialized to a form [x], by every expression generated for the type [t] in class [d]. *)
  Definition SeGood (v : pyval) (t : pytype) : Prop :=
    forall d nm co, tyok P W (c_tagging d) co t -> Cov P d t -> sdok d -> WT v t ->
    exists x, WIRE nm (c_tagging d) v t x /\
      forall cfg var e, se_plain cfg nm co -> se_ty P cfg false var t = Ok e ->
        ev (fun n => forall fns rho, eval P W (run n) (ctxof d fns) rho var = Ok v ->
                                     eval P W (run n) (ctxof d fns) rho e = Ok x).

  Definition val_of (attrs : list (string * pyval)) (f : fielddef) : pyval :=
    match slookup (f_name f) attrs with Some v => v | None => VNone end.

  Lemma attrs_map (R : fielddef -> string * pyval -> Prop) fs attrs :
    NoDup (map f_name fs) -> Forall2 (fun f nv => fst nv = f_name f /\ R f nv) fs attrs ->
    attrs = map (fun f => (f_name f, val_of attrs f)) fs /\ Forall (fun f => R f (f_name f, val_of attrs f)) fs.
  Proof.
    intros ND F.
    assert (NA : map fst attrs = map f_name fs).
    { clear ND. induction F; simpl; [reflexivity|]. destruct H as [-> _]. now rewrite IHF. }
    assert (A : Forall2 (fun f nv => nv = (f_name f, val_of attrs f) /\ R f nv) fs attrs).
    { eapply Forall2_impl; [|exact F]. intros f [n v] Hf Hv [E1 E2]. simpl in E1. subst. split; [|assumption].
      unfold val_of. rewrite (slookup_NoDup (f_name f) attrs v); auto. now rewrite NA. }
    split.
    - clear -A. revert A. generalize (val_of attrs). intros g A. induction A; simpl; [reflexivity|].
      destruct H as [-> _]. now rewrite <- IHA.
    - clear -A. revert A. generalize (val_of attrs). intros g A. induction A; constructor; auto.
      destruct H as [-> H]; assumption.
  Qed.

  Lemma val_of_getattr c attrs f fs : map fst attrs = map f_name fs -> In f fs -> getattr P (VObj c attrs) (f_name f) = Ok (val_of attrs f).
  Proof.
    intros E Hf. unfold getattr, val_of.
    destruct (slookup (f_name f) attrs) eqn:L; [reflexivity|].
    apply slookup_None in L. exfalso; apply L. rewrite E. now apply in_map.
  Qed.

  Definition is_vnone (v : pyval) : bool := match v with VNone => true | _ => false end.
  Definition only_none (ys : list pyval) : bool := match ys with [VNone] => true | _ => false end.
  Definition somes (l : list (option string)) : list string := concat (map (fun o => match o with Some k => [k] | None => [] end) l).
  (** Keys under which a field is written *)
  Definition names (d : classdef) (f : fielddef) : list string := somes (out_names P W d f).

  (** The serialized form of the field [f] of [d] with value [v]: one value, or one for every field of
      the flattened object *)
  Definition Form (nm : bool) (d : classdef) (f : fielddef) (v : pyval) (ys : list pyval) : Prop :=
    f_flatten f = false /\ (exists x, FWIRE nm d f v x /\ ys = [x]) \/
    f_flatten f = true /\ exists d' c' attrs', kid P f = Some d' /\ v = VObj c' attrs' /\
      Forall3 (fun g nv' x => WIRE nm (c_tagging d) (snd nv') (f_type g) x) (c_fields d') attrs' ys.

  (** The entries of a field, [r] being the answer of its skip predicate *)
  Definition emit (r : option (res bool)) (ks : list string) (ys : list pyval) : list (pyval * pyval) :=
    match r with
    | Some (Ok true) => []
    | Some _ => combine (map VStr ks) ys
    | None => if skip && only_none ys then [] else combine (map VStr ks) ys
    end.

  Definition out_of (d : classdef) (f : fielddef) (ys : list pyval) : list (pyval * pyval) :=
    if written f then emit (drops P d f (tuple_of ys)) (names d f) ys else [].

  Fixpoint outs_of (d : classdef) (fs : list fielddef) (yss : list (list pyval)) : list (list (pyval * pyval)) :=
    match fs, yss with
    | f :: fs, ys :: yss => out_of d f ys :: outs_of d fs yss
    | _, _ => []
    end.

  Definition live (fs : list (fielddef * option (string * skipfn))) := filter (fun fs => negb (se_skipped (fst fs))) fs.
  Definition rend (d : classdef) (fs : fielddef * option (string * skipfn)) : res sstmt :=
    rhs <- se_field P (class_fuel P) (se_cfg d true) (fst fs) obj_var ;;
    ts <- se_targets P W (class_fuel P) (c_rename_all d) (c_ser_class_var d) (fst fs) ;;
    match rhs with
    | [] => Raise XSyntax
    | _ => Ok (mkSstmt rhs ts (option_map fst (snd fs)))
    end.

  Lemma se_skipped_written f : negb (se_skipped f) = written f.
  Proof. unfold se_skipped, written. now destruct (f_skip f), (f_skip_se f). Qed.

  Lemma se_field_plain n d nm f par e :
    c_class_ser d = None -> f_serializer f = None -> f_flatten f = false ->
    se_ty P (se_cfg d nm) false (EAttr par (f_name f)) (f_type f) = Ok e ->
    se_field P n (se_cfg d nm) f par = Ok [e].
  Proof.
    intros H1 H2 H3 H4. assert (FN : forall t, find_ser P (r_class_ser (se_cfg d nm)) t = None).
    { intros. apply find_ser_none; assumption. }
    destruct n; cbn [se_field]; rewrite FN, H2, H3; cbn [has_some]; now rewrite H4.
  Qed.

  Lemma target_plain n d g k cvs : f_flatten g = false -> case_known W d g -> wire_name W d g = Some k -> lit_ok k = true ->
    se_targets P W n (c_rename_all d) cvs g = Ok [TgtKey k].
  Proof. intros H1 H2 H3 H4. destruct n; cbn [se_targets]; rewrite H1, (wire_conv d g k) by assumption; cbn [bind]; unfold lit; now rewrite H4. Qed.

  Lemma class_fuel_S : exists m, class_fuel P = S m.
  Proof. unfold class_fuel. eauto. Qed.

  Lemma kid_get f d' : kid P f = Some d' -> f_flatten f = true /\ exists c, f_type f = TClass c /\ get_class P c = Some d'.
  Proof. unfold kid. destruct (f_flatten f); [|discriminate]. destruct (f_type f); try discriminate. eauto. Qed.

  Lemma mapM_concat1 {A B} (f : A -> res (list B)) (g : A -> B) l : (forall a, In a l -> f a = Ok [g a]) -> exists ll, mapM f l = Ok ll /\ concat ll = map g l.
  Proof.
    intros H. exists (map (fun a => [g a]) l). split; [now apply mapM_all_Ok|]. clear. induction l; simpl; congruence.
  Qed.

  (** Left hand sides of the assignments for a field *)
  Lemma targets_ok d f : frag_class P W d -> In f (c_fields d) ->
    se_targets P W (class_fuel P) (c_rename_all d) (c_ser_class_var d) f = Ok (map TgtKey (names d f)) /\
    map Some (names d f) = out_names P W d f /\ names d f <> [].
  Proof.
    intros F Hf. pose proof F as (_ & _ & _ & _ & K5 & _ & K7 & _). rewrite Forall_forall in K7.
    destruct (K7 f Hf) as [(_ & _ & _ & _ & [k [E9 E9']] & E10 & _) E3].
    destruct (f_flatten f) eqn:Fl.
    - destruct (E3 eq_refl) as (c & d' & T & Hd' & Ne & _ & _ & _ & _ & _ & _ & CV & NE & FK & _).
      assert (EK : kid P f = Some d') by (unfold kid; now rewrite Fl, T).
      unfold names, out_names. rewrite EK.
      assert (KN : forall g, In g (c_fields d') -> exists k, wire_name W d' g = Some k /\ wire_name W d g = Some k /\ lit_ok k = true /\ case_known W d g /\ f_flatten g = false).
      { intros g Hg. rewrite Forall_forall in FK. destruct (FK g Hg) as ((_ & _ & _ & _ & [k' [G1 G2]] & _) & G3 & _ & _ & _ & G4 & G5 & _).
        exists k'. repeat split; auto. congruence. }
      destruct class_fuel_S as [m ->]. cbn [se_targets]. rewrite Fl, T, Hd', K5, (kid_sefields d d' FK). cbn [bind].
      assert (GO : forall l, (forall g, In g l -> In g (c_fields d')) -> exists ll,
         mapM (fun fs => se_targets P W m (c_rename_all d) false (fst fs)) (map (fun f => (f, @None (string * skipfn))) l) = Ok ll /\
         concat ll = map TgtKey (somes (map (wire_name W d') l)) /\ map Some (somes (map (wire_name W d') l)) = map (wire_name W d') l).
      { induction l as [|g l IH]; intros Hl; [exists []; auto|]. destruct IH as [ll [L1 [L2 L3]]]; [intros; apply Hl; now right|].
        destruct (KN g (Hl g (or_introl eq_refl))) as [k' [G1 [G2 [G3 [G4 G5]]]]].
        exists ([TgtKey k'] :: ll). cbn [map mapM fst]. rewrite (target_plain _ d g k') by assumption. cbn [bind]. rewrite L1. cbn [bind].
        split; [reflexivity|]. unfold somes in *. cbn [map concat]. rewrite G1. cbn [app map]. rewrite L2, L3. auto. }
      destruct (GO (c_fields d')) as [ll [L1 [L2 L3]]]; auto. rewrite L1. cbn [bind]. rewrite L2. split; [reflexivity|]. split; [exact L3|].
      destruct (c_fields d') as [|g r]; [congruence|]. destruct (KN g (or_introl eq_refl)) as [k' [G1 _]]. unfold somes. cbn [map concat]. rewrite G1. discriminate.
    - assert (EK : kid P f = None) by (unfold kid; now rewrite Fl). unfold names, out_names. rewrite EK. unfold somes. cbn [map concat]. rewrite E9.
      rewrite (target_plain _ d f k) by assumption. repeat split; discriminate.
  Qed.

  Lemma assign1_fresh : forall ks ys m, List.length ks = List.length ys -> NoDup ks -> (forall k, In k ks -> dget es m (VStr k) = None) ->
    fold_left (assign1 P) (combine (map TgtKey ks) ys) m = m ++ combine (map VStr ks) ys.
  Proof.
    induction ks as [|k ks IH]; intros ys m HL ND Fr; [simpl; now rewrite app_nil_r|].
    destruct ys as [|y ys]; [discriminate|]. injection HL as HL. inversion ND; subst. cbn [map combine fold_left]. unfold assign1 at 2. cbn [fst snd].
    rewrite dset_fresh by (apply Fr; now left). rewrite IH; auto.
    - now rewrite <- app_assoc.
    - intros k' Hk'. rewrite dget_app, (Fr k') by now right. simpl. assert (k <> k') by congruence. destruct (String.eqb_spec k k'); congruence.
  Qed.
  Lemma assign_fresh ks ys m : List.length ks = List.length ys -> ks <> [] -> NoDup ks -> (forall k, In k ks -> dget es m (VStr k) = None) ->
    assign P (map TgtKey ks) (tuple_of ys) m = Ok (m ++ combine (map VStr ks) ys).
  Proof.
    intros HL NE ND Fr. pose proof (assign1_fresh ks ys m HL ND Fr) as A.
    destruct ks as [|k [|k2 ks]]; [congruence| |].
    - destruct ys as [|y [|]]; try discriminate. cbn [map assign tuple_of]. simpl in A. now rewrite A.
    - destruct ys as [|y [|y2 ys]]; try discriminate. rewrite <- A. unfold tuple_of. set (ts := map TgtKey (k :: k2 :: ks)). set (vs := y :: y2 :: ys) in *.
      assert (L : List.length vs = List.length ts) by (unfold ts; rewrite map_length; auto).
      transitivity (ws <- iter P (VSeq KTuple vs) ;; if Nat.eqb (List.length ws) (List.length ts) then Ok (fold_left (assign1 P) (combine ts ws) m) else Raise XValue); [reflexivity|].
      cbn [iter bind]. rewrite L, Nat.eqb_refl. reflexivity.
  Qed.

  Lemma tuple_of_none ys : tuple_of ys = VNone <-> only_none ys = true.
  Proof. destruct ys as [|y [|]]; [| |]; try (split; intros H; [discriminate H|destruct y; discriminate H]); try (split; intros H; discriminate H). destruct y; split; intros H; try reflexivity; discriminate H. Qed.

  (** The predicate named in a statement *)
  Definition skip_named (call : callreq -> res pyval) (cx : ctx) (o : option string) (v : pyval) (r : option (res bool)) : Prop :=
    match o with
    | Some nm => exists p b, slookup nm (rev (x_fns cx)) = Some (GSkip p) /\ run_skip P call p v = Ok b /\ r = Some (Ok b)
    | None => r = None
    end.

  Lemma run_sstmt_keys call cx rho m ks el ys o r : x_skip cx = skip -> skip_named call cx o (tuple_of ys) r -> mapM (eval P W call cx rho) el = Ok ys ->
    List.length ks = List.length ys -> ks <> [] -> NoDup ks -> (forall k, In k ks -> dget es m (VStr k) = None) ->
    run_sstmt P W call cx rho m (mkSstmt el (map TgtKey ks) o) = Ok (m ++ emit r ks ys).
  Proof.
    intros XS SN H HL NE ND Fr. unfold run_sstmt. cbn [s_rhs s_targets s_skip]. rewrite H. cbn [bind].
    pose proof (assign_fresh ks ys m HL NE ND Fr) as A.
    assert (E : match map TgtKey ks with
      | [TgtFlat] => if truthy es (tuple_of ys) then kvs <- items (tuple_of ys) ;;
           Ok (fold_left (fun m kv => if dmem es m (fst kv) then m else m ++ [kv]) kvs m) else Ok m
      | ts => match o with
              | Some nm => match fn_lookup cx nm with
                           | Some (GSkip p) => b <- run_skip P call p (tuple_of ys) ;; if (b : bool) then Ok m else assign P ts (tuple_of ys) m
                           | _ => Raise XName
                           end
              | None => if x_skip cx then match tuple_of ys with VNone => Ok m | _ => assign P ts (tuple_of ys) m end else assign P ts (tuple_of ys) m
              end
      end = match o with
            | Some nm => match fn_lookup cx nm with
                         | Some (GSkip p) => b <- run_skip P call p (tuple_of ys) ;; if (b : bool) then Ok m else assign P (map TgtKey ks) (tuple_of ys) m
                         | _ => Raise XName
                         end
            | None => if x_skip cx then match tuple_of ys with VNone => Ok m | _ => assign P (map TgtKey ks) (tuple_of ys) m end
                      else assign P (map TgtKey ks) (tuple_of ys) m
            end).
    { destruct ks as [|k [|]]; reflexivity. }
    etransitivity; [exact E|]. rewrite A, XS. unfold skip_named in SN. destruct o as [nm|].
    { destruct SN as (p & b & L & R & ->). unfold fn_lookup. rewrite L, R. cbn [bind emit]. destruct b; [now rewrite app_nil_r|reflexivity]. }
    subst r. unfold emit. destruct skip; cbn [andb]; [|reflexivity].
    destruct (only_none ys) eqn:ON.
    - apply tuple_of_none in ON. rewrite ON. now rewrite app_nil_r.
    - assert (tuple_of ys <> VNone) by (rewrite tuple_of_none; congruence). destruct (tuple_of ys); congruence.
  Qed.

  Lemma NoDup_app_inv {A} (l r : list A) : NoDup (l ++ r) -> NoDup l /\ NoDup r /\ (forall x, In x l -> ~ In x r).
  Proof.
    induction l as [|a l IH]; simpl; intros H; [repeat split; auto; constructor|]. inversion H as [|? ? N H']; subst. destruct (IH H') as [A1 [A2 A3]].
    rewrite in_app_iff in N. repeat split; auto; [constructor; tauto|]. intros x [<-|Hx]; [tauto|now apply A3].
  Qed.

  Lemma run_stmts d call cx rho : x_skip cx = skip -> forall fs yss stmts m,
    Forall2 (fun f ys => written f = true -> exists el, rend d (f, sk_of d f) = Ok (mkSstmt el (map TgtKey (names d f)) (option_map fst (sk_of d f))) /\
               mapM (eval P W call cx rho) el = Ok ys /\ List.length (names d f) = List.length ys /\ names d f <> [] /\
               map Some (names d f) = out_names P W d f /\
               skip_named call cx (option_map fst (sk_of d f)) (tuple_of ys) (drops P d f (tuple_of ys))) fs yss ->
    NoDup (concat (map (out_names P W d) fs)) ->
    (forall f k, In f fs -> In (Some k) (out_names P W d f) -> dget es m (VStr k) = None) ->
    mapM (rend d) (live (map (fun f => (f, sk_of d f)) fs)) = Ok stmts ->
    foldM (run_sstmt P W call cx rho) stmts m = Ok (m ++ concat (outs_of d fs yss)).
  Proof.
    intros HS. induction fs as [|f fs IH]; intros yss stmts m F ND Fr M; inversion F as [|? ys ? yss' H1 H3]; subst.
    - simpl in M. injection M as <-. simpl. now rewrite app_nil_r.
    - cbn [map concat] in ND. apply NoDup_app_inv in ND as [ND1 [ND2 ND3]]. cbn [map live filter] in M. cbn [fst] in M. rewrite se_skipped_written in M.
      cbn [outs_of concat]. unfold out_of. destruct (written f) eqn:Ew.
      + destruct (H1 eq_refl) as [el [Hr [He [HL [NE [HN SN]]]]]]. cbn [mapM] in M. fold (live (map (fun f => (f, sk_of d f)) fs)) in M.
        rewrite Hr in M. cbn [bind] in M. inv_bind M. injection M as <-.
        assert (NDk : NoDup (names d f)) by (rewrite <- HN in ND1; now apply NoDup_map_inv in ND1).
        assert (Fm : forall k, In k (names d f) -> dget es m (VStr k) = None).
        { intros k Hk. apply (Fr f); [now left|]. rewrite <- HN. now apply in_map. }
        cbn [foldM]. rewrite (run_sstmt_keys _ _ _ _ _ _ ys _ _ HS SN He HL NE NDk Fm). cbn [bind].
        rewrite app_assoc. apply IH; auto.
        intros g k' Hg Hk'. rewrite dget_app. rewrite (Fr g k') by (auto; now right).
        assert (EM : forall r, emit r (names d f) ys = [] \/ emit r (names d f) ys = combine (map VStr (names d f)) ys).
        { intros r. unfold emit. destruct r as [[[|]| |]|]; auto. destruct (skip && only_none ys); auto. }
        destruct (EM (drops P d f (tuple_of ys))) as [->| ->]; [reflexivity|].
        assert (NI : ~ In k' (names d f)).
        { intros Hk. apply (ND3 (Some k')); [rewrite <- HN; now apply in_map|]. apply in_concat. exists (out_names P W d g). split; auto. now apply in_map. }
        revert NI. clear. generalize (names d f) as ks. intros ks. revert ys. induction ks as [|k ks IHk]; intros ys NI; [reflexivity|].
        destruct ys; [reflexivity|]. simpl. destruct (String.eqb_spec k k') as [->|]; [elim NI; now left|]. apply IHk. intros H; apply NI; now right.
      + fold (live (map (fun f => (f, sk_of d f)) fs)) in M.
        simpl app. eapply IH; eauto. intros; eapply Fr; eauto; now right.
  Qed.

  Definition touts_of (fs : list fielddef) (yss : list (list pyval)) : list (list pyval) :=
    map (fun fx => if written (fst fx) then snd fx else []) (combine fs yss).

  Definition rendt (d : classdef) (fs : fielddef * option (string * skipfn)) : res (list expr) :=
    rhs <- se_field P (class_fuel P) (se_cfg d false) (fst fs) obj_var ;;
    match rhs with [] => Raise XSyntax | _ => Ok rhs end.

  Lemma run_tuple_stmts d call cx rho : forall fs yss l,
    Forall2 (fun f ys => written f = true -> exists el, rendt d (f, sk_of d f) = Ok el /\ mapM (eval P W call cx rho) el = Ok ys) fs yss ->
    mapM (rendt d) (live (map (fun f => (f, sk_of d f)) fs)) = Ok l ->
    exists ll, mapM (mapM (eval P W call cx rho)) l = Ok ll /\ concat ll = concat (touts_of fs yss).
  Proof.
    induction fs as [|f fs IH]; intros yss l F M; inversion F as [|? ys ? yss' H1 H3]; subst.
    - simpl in M. injection M as <-. exists []; auto.
    - cbn [map live filter] in M. cbn [fst] in M. rewrite se_skipped_written in M.
      unfold touts_of. cbn [combine map concat fst snd]. fold (touts_of fs yss').
      fold (live (map (fun f => (f, sk_of d f)) fs)) in M.
      destruct (written f) eqn:Ew.
      + destruct (H1 eq_refl) as [el [Hr He]]. cbn [mapM] in M. rewrite Hr in M. cbn [bind] in M. inv_bind M. injection M as <-.
        destruct (IH _ _ H3 Hb) as [ll [E1 E2]]. exists (ys :: ll). cbn [mapM]. rewrite He. cbn [bind]. rewrite E1. cbn [bind].
        split; [reflexivity|]. cbn [concat]. now rewrite E2.
      + destruct (IH _ _ H3 M) as [ll [E1 E2]]. exists ll. auto.
  Qed.

  Lemma mapM_total {A B} (f : A -> res B) l : (forall a, In a l -> exists b, f a = Ok b) -> exists l', mapM f l = Ok l'.
  Proof.
    induction l; simpl; intros H; [eauto|].
    destruct (H a) as [b Hb]; [now left|]. destruct IHl as [l' Hl]; [auto|].
    rewrite Hb; simpl; rewrite Hl; simpl; eauto.
  Qed.

  Lemma se_cfg_plain d nm : frag_class P W d -> se_plain (se_cfg d nm) nm (coerces d).
  Proof.
    intros (H1 & _ & H2 & _). unfold se_plain, se_cfg. cbn. rewrite H1, H2. repeat split.
    unfold coerces. destruct (c_check d); congruence.
  Qed.

  Lemma wt_obj_inv c attrs : WT (VObj c attrs) (TClass c) -> exists d,
    get_class P c = Some d /\ frag_class P W d /\ Q d /\
    Forall2 (fun f nv =>
          fst nv = f_name f /\
          (written f || read f = true -> WT (snd nv) (f_type f)) /\
          (read f = false -> dflt f = Some (Ok (snd nv))) /\
          (read f = true -> written f = false -> absent_ok f (snd nv)) /\
          (sk = true -> read f = true -> written f = true -> c_transparent d = false ->
             nonnull P (f_type f) = true /\ (snd nv = VNone -> absent_ok f (snd nv))) /\
          (written f = true -> c_transparent d = false -> safe_skip P W d f (snd nv)) /\
          (written f = true -> f_serializer f <> None -> exists x, scalar_val x = true /\ coded f (snd nv) x /\
             (read f = true -> decoded f x (snd nv) /\ (sk = true -> x = VNone -> absent_ok f (snd nv))))) (c_fields d) attrs /\
    c_post d (VObj c attrs) = Ok (VObj c attrs).
  Proof. intros H; inversion H; subst. eauto 10. Qed.

  Lemma live_In d f fs : In f (live (map (fun f => (f, sk_of d f)) fs)) -> snd f = sk_of d (fst f) /\ In (fst f) fs /\ written (fst f) = true.
  Proof.
    unfold live. rewrite filter_In. intros [H1 H2]. apply in_map_iff in H1 as [g [<- Hg]]. cbn [fst] in *.
    rewrite se_skipped_written in H2. auto.
  Qed.

  (** What the fields of a flattened object refer to is known in the class holding it. *)
  Lemma Cov_kid d f d' g : get_class P (c_id d) = Some d -> frag_class P W d -> In f (c_fields d) -> kid P f = Some d' -> In g (c_fields d') ->
    Cov P d (f_type g) /\ tyok P W (c_tagging d) (coerces d) (f_type g).
  Proof.
    intros G F Hf EK Hg. apply kid_get in EK as [Fl [c [T Hd']]].
    pose proof F as (_ & _ & _ & _ & _ & _ & K7 & _). rewrite Forall_forall in K7. destruct (K7 f Hf) as [_ E3].
    destruct (E3 Fl) as (c0 & d0 & T0 & Hd0 & Ne & Wf & _ & _ & _ & _ & _ & _ & _ & FK & _).
    assert (c0 = c) by congruence. subst c0. assert (d0 = d') by congruence. subst d0.
    rewrite Forall_forall in FK. destruct (FK g Hg) as (_ & _ & Wg & _ & _ & _ & _ & TY & _). split; [|exact TY].
    assert (Sf : f_skip f = false) by (unfold written in Wf; now destruct (f_skip f)).
    assert (Sg : f_skip g = false) by (unfold written in Wg; now destruct (f_skip g)).
    assert (NM : smem c [c_id d] = false) by (unfold smem; cbn [existsb]; rewrite (proj2 (String.eqb_neq _ _)) by congruence; reflexivity).
    destruct class_fuel_S as [m EF].
    split; [|split].
    - intros u Hu Su. apply iter_types_complete; auto. eapply reach_class; eauto. eapply reach_field; eauto. rewrite T. constructor.
    - intros l Sl. unfold iter_unions, iu_fields. apply in_concat.
      eexists. split; [apply in_map_iff; exists f; split; [reflexivity|assumption]|]. rewrite Sf, T. cbn [iu_ty]. rewrite EF. cbn [iu_class].
      rewrite NM, Hd'. unfold iu_fields. apply in_concat.
      eexists. split; [apply in_map_iff; exists g; split; [reflexivity|assumption]|]. rewrite Sg. now apply iu_ty_covers.
    - intros l Sl. unfold iter_literals, il_fields. apply in_concat.
      eexists. split; [apply in_map_iff; exists f; split; [reflexivity|assumption]|]. rewrite Sf, T. cbn [il_ty]. rewrite EF. cbn [il_class].
      rewrite NM, Hd'. unfold il_fields. apply in_concat.
      eexists. split; [apply in_map_iff; exists g; split; [reflexivity|assumption]|]. rewrite Sg. apply il_ty_covers; auto.
      intros; eapply tyok_alias; eauto.
  Qed.

  Lemma wt_type_obj v c : WT v (TClass c) -> exists attrs, v = VObj c attrs.
  Proof. intros H; inversion H; subst; eauto. Qed.

  (** One field of an object is serialized *)
  Lemma se_one_field c d attrs nm f :
    get_class P c = Some d -> frag_class P W d -> map fst attrs = map f_name (c_fields d) -> In f (c_fields d) -> written f = true ->
    (forall u, vsize u < vsize (VObj c attrs) -> forall t, SeGood u t) -> vsize (val_of attrs f) < vsize (VObj c attrs) ->
    WT (val_of attrs f) (f_type f) -> (f_serializer f <> None -> exists x, coded f (val_of attrs f) x) ->
    exists ys, Form nm d f (val_of attrs f) ys /\ List.length (names d f) = List.length ys /\
      exists el, se_field P (class_fuel P) (se_cfg d nm) f obj_var = Ok el /\ el <> [] /\
        ev (fun n => mapM (eval P W (run n) (ctxof d (skip_fns d)) [("obj", VObj c attrs)]) el = Ok ys).
  Proof.
    intros Hd F NA Hf Ew IH SZ T1 CD.
    pose proof F as F'. destruct F' as (K1 & K2 & K3 & K4 & K5 & K6 & K7 & _).
    assert (SD : sdok d) by now apply frag_sdok. rewrite Forall_forall in K7.
    destruct (K7 f Hf) as [(E1 & E2 & E4 & TY & [k [E9 E9']] & E10 & _) E3]. rewrite Ew in TY. specialize (TY eq_refl).
    set (rho := [("obj", VObj c attrs)]).
    assert (GA : forall call fns, eval P W call (ctxof d fns) rho (EAttr obj_var (f_name f)) = Ok (val_of attrs f)).
    { intros call fns. cbn [eval]. cbn [obj_var eval]. unfold rho. cbn [slookup String.eqb]. cbn. apply (val_of_getattr c attrs f (c_fields d)); auto. }
    destruct (f_flatten f) eqn:Fl.
    - destruct (E3 eq_refl) as (c' & d' & T & Hd' & Ne & _ & _ & _ & _ & _ & _ & CV & NE & FK & _). rewrite T in T1.
      destruct (wt_type_obj _ _ T1) as [attrs' EV]. rewrite EV in T1.
      destruct (wt_obj_inv _ _ T1) as [d0 [Hd0 [F0 [_ [FF _]]]]]. assert (d0 = d') by congruence. subst d0.
      assert (EK : kid P f = Some d') by (unfold kid; now rewrite Fl, T).
      pose proof F0 as (_ & _ & _ & _ & _ & K6' & _).
      destruct (attrs_map _ _ _ K6' FF) as [EA' FA'].
      assert (NA' : map fst attrs' = map f_name (c_fields d')) by (rewrite EA', map_map; reflexivity).
      assert (CH : Forall (fun g => exists y, WIRE nm (c_tagging d) (val_of attrs' g) (f_type g) y /\
          exists e, se_ty P (se_cfg d nm) false (EAttr (EAttr obj_var (f_name f)) (f_name g)) (f_type g) = Ok e /\
          ev (fun n => forall fns, eval P W (run n) (ctxof d fns) rho e = Ok y)) (c_fields d')).
      { rewrite Forall_forall in *. intros g Hg. destruct (Cov_kid d f d' g (get_class_self _ _ _ Hd) F Hf EK Hg) as [Cg Tg].
        destruct (FK g Hg) as (_ & Fg & Wg & _).
        destruct (FA' g Hg) as [Tv _]. cbn [snd] in Tv. rewrite Wg in Tv. specialize (Tv eq_refl).
        assert (Hin : In (f_name g, val_of attrs' g) attrs') by (rewrite EA' at 2; apply in_map_iff; eauto).
        assert (SZ' : vsize (val_of attrs' g) < vsize (VObj c attrs)).
        { pose proof (vsize_obj c' attrs' _ Hin) as Z. cbn [snd] in Z. rewrite EV in SZ. lia. }
        destruct (IH _ SZ' (f_type g) d nm (coerces d) Tg Cg SD Tv) as [y [Y1 Y2]]. exists y. split; [exact Y1|].
        destruct (se_ty_total P NoSers W (c_tagging d) (coerces d) (se_cfg d nm) nm (f_type g) (se_cfg_plain d nm F) Tg (EAttr (EAttr obj_var (f_name f)) (f_name g))) as [e He].
        exists e. split; [exact He|]. specialize (Y2 _ _ _ (se_cfg_plain d nm F) He).
        eapply ev_mono; [exact Y2|]. cbv beta. intros n Hn fns. apply Hn. specialize (GA (run n) fns). cbn [eval] in GA |- *. rewrite GA. cbn [bind].
        rewrite EV. apply (val_of_getattr c' attrs' g (c_fields d')); auto. }
      apply Forall_choice in CH as [ys CH]. exists ys.
      assert (LN : List.length (names d f) = List.length ys).
      { destruct (targets_ok d f F Hf) as [_ [HN _]]. rewrite <- (map_length (@Some string)), HN. unfold out_names. rewrite EK, map_length.
        clear -CH; induction CH; cbn [List.length]; congruence. }
      split; [|split; [exact LN|]].
      { right. split; [exact Fl|]. exists d', c', attrs'. repeat split; auto. rewrite EA'. clear -CH. revert CH.
        generalize (val_of attrs') as h. intros h CH. induction CH as [|g y l ys [H _] CH IHc]; cbn [map]; constructor; auto. }
      assert (GO : forall fs ys, (forall g, In g fs -> In g (c_fields d')) -> Forall2 (fun g y => exists e,
          se_ty P (se_cfg d nm) false (EAttr (EAttr obj_var (f_name f)) (f_name g)) (f_type g) = Ok e /\
          ev (fun n => forall fns, eval P W (run n) (ctxof d fns) rho e = Ok y)) fs ys ->
          exists ll, (forall m, mapM (fun fs => se_field P m (se_cfg d nm) (fst fs) (EAttr obj_var (f_name f))) (map (fun f => (f, @None (string * skipfn))) fs) = Ok ll) /\
            List.length (concat ll) = List.length fs /\
            ev (fun n => forall fns, mapM (eval P W (run n) (ctxof d fns) rho) (concat ll) = Ok ys)).
      { clear CH LN ys. intros fs ys Hs CH. induction CH as [|g y fs ys [e [He Ev]] CH IHc].
        - exists []. repeat split; auto. apply ev_always. reflexivity.
        - destruct IHc as [ll [L1 [L2 L3]]]; [intros; apply Hs; now right|]. exists ([e] :: ll). split; [|split].
          + intros m. cbn [map mapM fst]. rewrite Forall_forall in FK. destruct (FK g (Hs g (or_introl eq_refl))) as (_ & Fg & _ & _ & _ & _ & _ & _ & _ & G1).
            rewrite (se_field_plain m d nm g _ e K3 G1 Fg He). cbn [bind]. now rewrite L1.
          + cbn [concat app List.length]. now rewrite L2.
          + eapply ev_mono; [exact (ev_and _ _ Ev L3)|]. cbv beta. intros n [N1 N2] fns. cbn [concat app mapM]. rewrite N1. cbn [bind]. now rewrite N2. }
      destruct (GO (c_fields d') ys) as [ll [L1 [L2 L3]]]; auto.
      { eapply Forall2_impl; [|exact CH]. cbv beta. intros g y _ _ [_ H]. exact H. }
      exists (concat ll). split; [|split; [|eapply ev_mono; [exact L3|]; cbv beta; intros n Hn; apply Hn]].
      { destruct class_fuel_S as [m ->]. cbn [se_field]. assert (E0 : f_serializer f = None) by (destruct (f_serializer f); [|reflexivity]; destruct E2 as [_ E2]; discriminate).
        rewrite (find_ser_none P NoSers) by exact K3. rewrite Fl, E0, T, Hd'. cbn [has_some].
        assert (RV : r_class_var (se_cfg d nm) = false) by (unfold se_cfg; cbn; now destruct nm). rewrite RV, (kid_sefields d d' FK). cbn [bind]. rewrite L1. cbn [bind].
        unfold legacy_wrap_list. change (r_legacy (se_cfg d nm)) with (has_some (c_serializer d)). rewrite K1. reflexivity. }
      intros E. rewrite E in L2. destruct (c_fields d'); [congruence|discriminate].
    - destruct E1 as [[E1 _]|[g [h [E1 _]]]].
      2:{ destruct CD as [x [g' [G1 G2]]]; [congruence|]. rewrite E1 in G1. injection G1 as <-.
        exists [x]. split; [left; split; [exact Fl|]; exists x; split; [right; exists g; auto|reflexivity]|]. split.
        { destruct (targets_ok d f F Hf) as [_ [HN _]]. rewrite <- (map_length (@Some string)), HN. unfold out_names, kid. now rewrite Fl. }
        exists [EFn (mangle (f_name f) "serializer") (EAttr obj_var (f_name f))]. split; [|split; [discriminate|]].
        - destruct class_fuel_S as [m ->]. cbn [se_field]. rewrite (find_ser_none P NoSers) by exact K3. rewrite E1. reflexivity.
        - apply ev_always. intros n. specialize (GA (run n) (skip_fns d)). cbn [mapM]. cbn [eval] in GA |- *. unfold fn_lookup. cbn [x_fns].
          change (x_fns (ctxof d (skip_fns d))) with (skip_fns d). rewrite (ser_fns_lookup d f g F Hf E1). rewrite GA. cbn [bind]. rewrite G2. reflexivity. }
      assert (Sk : f_skip f = false) by (unfold written in Ew; now destruct (f_skip f)).
      destruct (IH _ SZ (f_type f) d nm (coerces d) TY (Cov_field P W _ _ d f Hf Sk TY) SD T1) as [x [X1 X2]].
      exists [x]. split; [left; split; [exact Fl|]; exists x; split; [left; auto|reflexivity]|]. split.
      { destruct (targets_ok d f F Hf) as [_ [HN _]]. rewrite <- (map_length (@Some string)), HN. unfold out_names, kid. now rewrite Fl. }
      destruct (se_ty_total P NoSers W (c_tagging d) (coerces d) (se_cfg d nm) nm (f_type f) (se_cfg_plain d nm F) TY (EAttr obj_var (f_name f))) as [e He].
      exists [e]. split; [now apply se_field_plain|]. split; [discriminate|]. specialize (X2 _ _ _ (se_cfg_plain d nm F) He).
      eapply ev_mono; [exact X2|]. cbv beta. intros n Hn. cbn [mapM]. rewrite Hn by apply GA. reflexivity.
  Qed.

  Lemma Forall3_length {A B C} (R : A -> B -> C -> Prop) la lb lc : Forall3 R la lb lc -> List.length la = List.length lc.
  Proof. induction 1; simpl; congruence. Qed.

  Lemma Forall3_in {A B C} (R : A -> B -> C -> Prop) la lb lc c : Forall3 R la lb lc -> In c lc -> exists a b, In a la /\ R a b c.
  Proof. induction 1 as [|a b c' la lb lc Hr F IH]; simpl; [contradiction|]. intros [->|Hc]; [eauto|]. destruct (IH Hc) as [a' [b' [? ?]]]; eauto. Qed.

  (** The entries written for a field are those of its form *)
  Lemma form_out d f v ys : frag_class P W d -> In f (c_fields d) -> written f = true -> Form true d f v ys ->
    (f_flatten f = false -> safe_skip P W d f v) ->
    let out := emit (drops P d f (tuple_of ys)) (names d f) ys in
    (f_flatten f = false /\ exists k x, wire_name W d f = Some k /\ FWIRE true d f v x /\
             match drops P d f x with
             | Some r => exists b, r = Ok b /\ out = if (b : bool) then [] else [(VStr k, x)]
             | None => skip = true /\ x = VNone /\ out = [] \/ (skip = false \/ x <> VNone) /\ out = [(VStr k, x)]
             end) \/
    (f_flatten f = true /\ exists d' c' attrs' l, kid P f = Some d' /\ v = VObj c' attrs' /\
             Forall3 (fun g nv' kv => exists k x, wire_name W d' g = Some k /\ WIRE true (c_tagging d) (snd nv') (f_type g) x /\
                kv = (VStr k, x)) (c_fields d') attrs' l /\
             (skip = true /\ map snd l = [VNone] /\ out = [] \/ (skip = false \/ map snd l <> [VNone]) /\ out = l)).
  Proof.
    intros F Hf Ew [[Fl [x [X ->]]]|[Fl [d' [c' [attrs' [EK [-> FW]]]]]]] SS.
    - left. split; [exact Fl|]. pose proof F as (_ & _ & _ & _ & _ & _ & K7 & _). rewrite Forall_forall in K7.
      destruct (K7 f Hf) as [(_ & _ & S & _ & [k [E9 _]] & _) E3]. exists k, x. split; [exact E9|]. split; [exact X|].
      unfold names, out_names, kid. rewrite Fl. unfold somes. cbn [map concat]. rewrite E9. cbn [app map combine].
      cbn [tuple_of]. specialize (SS Fl reuse cv skip x X). destruct (drops P d f x) as [r|].
      { destruct SS as [b [-> _]]. exists b. split; [reflexivity|]. unfold emit. now destruct b. }
      unfold emit. destruct skip; [|right; auto]. destruct x; cbn [andb only_none]; auto; right; (split; [right; discriminate|reflexivity]).
    - right. split; [exact Fl|]. exists d', c', attrs'.
      destruct (targets_ok d f F Hf) as [_ [HN _]]. exists (combine (map VStr (names d f)) ys). split; [exact EK|]. split; [reflexivity|].
      unfold out_names in HN. rewrite EK in HN.
      assert (LN : List.length (names d f) = List.length ys).
      { rewrite <- (map_length (@Some string)), HN, map_length. eapply Forall3_length; eauto. }
      assert (SN : map snd (combine (map VStr (names d f)) ys) = ys).
      { clear -LN. revert ys LN. induction (names d f) as [|k ks IHk]; intros [|y ys] L; simpl in *; try discriminate; auto. f_equal. apply IHk. congruence. }
      split; [|].
      { clear -HN FW. revert HN. generalize (names d f) as ks. induction FW as [|g nv y gs at0 ys Hg FW IHf]; intros ks HN.
        - destruct ks; [constructor|discriminate].
        - destruct ks as [|k ks]; [discriminate|]. cbn [map] in HN. injection HN as H1 H2. cbn [map combine]. constructor; auto. exists k, y. auto. }
      assert (ND : drops P d f (tuple_of ys) = None).
      { pose proof F as (_ & _ & _ & _ & _ & _ & K7 & _). rewrite Forall_forall in K7. destruct (K7 f Hf) as [_ E3].
        destruct (E3 Fl) as (? & ? & _ & _ & _ & _ & _ & _ & _ & _ & _ & _ & _ & _ & NS). apply NS. }
      rewrite ND. unfold emit.
      rewrite SN. destruct skip; [|right; auto]. cbn [andb]. destruct (only_none ys) eqn:ON.
      + left. destruct ys as [|y [|]]; try discriminate; destruct y; try discriminate. auto.
      + right. split; [|reflexivity]. right. intros ->. discriminate.
  Qed.

  (** The predicate of a field is known to the generated code, and gives an answer. *)
  Lemma skip_known d f v ys call : frag_class P W d -> In f (c_fields d) -> (f_flatten f = false -> safe_skip P W d f v) -> Form true d f v ys ->
    skip_named call (ctxof d (skip_fns d)) (option_map fst (sk_of d f)) (tuple_of ys) (drops P d f (tuple_of ys)).
  Proof.
    intros F Hf SS FM. pose proof F as (_ & _ & _ & _ & _ & _ & K7 & _). rewrite Forall_forall in K7. destruct (K7 f Hf) as [(_ & _ & S & _) E3].
    pose proof (sk_of_drops d f S) as D. destruct (sk_of d f) as [[nm p]|] eqn:E; cbn [option_map fst skip_named]; [|apply D].
    destruct D as [_ D]. destruct FM as [[Fl [x [X ->]]]|[Fl _]].
    - cbn [tuple_of]. specialize (SS Fl reuse cv skip x X). rewrite (D call x) in *. destruct SS as [b [R _]].
      exists p, b. split; [now apply (skip_fns_lookup d f)|]. split; [exact R|]. now rewrite R.
    - destruct (E3 Fl) as (? & ? & _ & _ & _ & _ & _ & _ & _ & _ & _ & _ & _ & _ & NS). rewrite (no_skip_sk d f S NS) in E. discriminate.
  Qed.

  Lemma Forall2_Forall2_both {A B} (R R' : A -> B -> Prop) l l' : Forall2 R l l' -> Forall2 R' l l' -> Forall2 (fun a b => R a b /\ R' a b) l l'.
  Proof. induction 1; intros G; inversion G; subst; constructor; auto. Qed.

  Lemma se_obj c d attrs nm :
    get_class P c = Some d -> WT (VObj c attrs) (TClass c) -> (forall u, vsize u < vsize (VObj c attrs) -> forall t, SeGood u t) ->
    exists x, (forall tg, WIRE nm tg (VObj c attrs) (TClass c) x) /\
      forall ro rc, flag ro (c_reuse d) = reuse -> flag rc (c_conv d) = cv ->
      ev (fun n => run n (QSe d (VObj c attrs) nm ro rc skip) = Ok x).
  Proof.
    intros Hd HW IH. apply wt_obj_inv in HW as [d' [Hd' [F [_ [FF _]]]]]. rewrite Hd in Hd'. injection Hd' as <-.
    pose proof F as F'. destruct F' as (K1 & K2 & K3 & K4 & K5 & K6 & K7 & K8 & K9 & K10 & K11 & K12 & K13 & K14).
    destruct (attrs_map _ _ _ K6 FF) as [EA FA].
    assert (NA : map fst attrs = map f_name (c_fields d)).
    { rewrite EA. rewrite map_map. reflexivity. }
    set (rho := [("obj", VObj c attrs)]).
    assert (FP : 0 < class_fuel P) by (unfold class_fuel; lia).
    assert (CH : Forall (fun f => exists ys, written f = true ->
        Form nm d f (val_of attrs f) ys /\ List.length (names d f) = List.length ys /\
        exists el, se_field P (class_fuel P) (se_cfg d nm) f obj_var = Ok el /\ el <> [] /\
          ev (fun n => mapM (eval P W (run n) (ctxof d (skip_fns d)) rho) el = Ok ys)) (c_fields d)).
    { rewrite Forall_forall in *. intros f Hf. destruct (written f) eqn:Ew; [|exists []; discriminate].
      destruct (FA f Hf) as (T1 & _ & _ & _ & _ & T2). cbn [snd] in T1, T2. rewrite Ew in T1. specialize (T1 eq_refl).
      assert (Hin : In (f_name f, val_of attrs f) attrs) by (rewrite EA at 2; apply in_map_iff; eauto).
      destruct (se_one_field c d attrs nm f Hd F NA Hf Ew IH (vsize_obj c attrs _ Hin) T1) as [ys Y]; [|exists ys; auto].
      intros NS. destruct (T2 Ew NS) as [x [_ [X _]]]. eauto. }
    apply Forall_choice in CH as [yss CH].
    assert (EV : ev (fun n => Forall2 (fun f ys => written f = true -> exists el,
       se_field P (class_fuel P) (se_cfg d nm) f obj_var = Ok el /\ el <> [] /\ List.length (names d f) = List.length ys /\
       mapM (eval P W (run n) (ctxof d (skip_fns d)) rho) el = Ok ys) (c_fields d) yss)).
    { apply ev_Forall2. eapply Forall2_impl; [|exact CH]. intros f ys _ _ Hx. cbv beta.
      destruct (written f) eqn:Ew; [|apply ev_always; discriminate].
      destruct (Hx Ew) as [_ [LN [el [He [Ne Ev]]]]]. eapply ev_mono; [exact Ev|]. cbv beta. intros n Hn _. exists el. auto. }
    destruct (c_transparent d) eqn:Tr.
    { (* transparent *)
      destruct (K14 eq_refl) as [f [Ef [Ew [Er [Efl Ens]]]]]. rewrite Ef in CH. inversion CH as [|? ys ? ? H1 H3]; subst. inversion H3; subst.
      destruct (H1 Ew) as [[[_ [x [[[_ X]|[g [X _]]] ->]]]|[Z _]] _]; [|congruence|congruence]. exists x. split.
      - intros tg. rewrite EA, Ef. cbn [map]. eapply W_obj_transparent; eauto.
      - intros ro rc E1 E2. apply ev_S in EV. eapply ev_mono; [exact EV|]. cbv beta. intros [|n] HF; [contradiction|].
        rewrite Ef in HF. inversion HF as [|? ? ? ? HF1 _]; subst. destruct (HF1 Ew) as [el [Hr [Ne [_ He]]]].
        cbn [run step].
        assert (RE : render_se P W d nm = Ok (SbTransparent el)).
        { unfold render_se, render_to_dict, render_to_tuple. rewrite (frag_sefields d F _ K5), Tr. cbn [bind]. rewrite Ef.
          cbn [map filter fst]. rewrite se_skipped_written, Ew. destruct nm; cbn [fst]; rewrite Hr; cbn [bind]; reflexivity. }
        rewrite RE. cbn [bind]. rewrite (frag_se_fns d F _ FP). cbn [bind run_se_body].
        rewrite E1, E2. fold rho. rewrite He. reflexivity. }
    destruct nm.
    - (* mapping *)
      exists (VMap MDict (concat (outs_of d (c_fields d) yss))). split.
      + intros tg. eapply W_obj; eauto. rewrite EA.
        assert (SSk : forall f, In f (c_fields d) -> written f = true -> safe_skip P W d f (val_of attrs f)).
        { intros f Hf Ew. rewrite Forall_forall in FA. destruct (FA f Hf) as (_ & _ & _ & _ & S & _). exact (S Ew eq_refl). }
        assert (HH : forall fs yss, (forall f, In f fs -> In f (c_fields d)) -> Forall2 (fun f ys => written f = true ->
             Form true d f (val_of attrs f) ys) fs yss ->
             Forall3 (fun f nv out =>
          (written f = false /\ out = []) \/
          (written f = true /\ f_flatten f = false /\ exists k x, wire_name W d f = Some k /\ FWIRE true d f (snd nv) x /\
             match drops P d f x with
             | Some r => exists b, r = Ok b /\ out = if (b : bool) then [] else [(VStr k, x)]
             | None => skip = true /\ x = VNone /\ out = [] \/ (skip = false \/ x <> VNone) /\ out = [(VStr k, x)]
             end) \/
          (f_flatten f = true /\ exists d' c' attrs' l, kid P f = Some d' /\ snd nv = VObj c' attrs' /\
             Forall3 (fun g nv' kv => exists k x, wire_name W d' g = Some k /\ WIRE true (c_tagging d) (snd nv') (f_type g) x /\
                kv = (VStr k, x)) (c_fields d') attrs' l /\
             (skip = true /\ map snd l = [VNone] /\ out = [] \/ (skip = false \/ map snd l <> [VNone]) /\ out = l)))
          fs (map (fun f => (f_name f, val_of attrs f)) fs) (outs_of d fs yss)).
        { induction fs as [|f fs IHf]; intros l Hs G; inversion G as [|? ys ? yss' H1 H3]; subst; constructor.
          - unfold out_of. destruct (written f) eqn:Ew; [|left; auto].
            destruct (form_out d f (val_of attrs f) ys F (Hs f (or_introl eq_refl)) Ew (H1 eq_refl) (fun _ => SSk f (Hs f (or_introl eq_refl)) Ew)) as [[A1 A2]|A]; [right; left; auto|right; right; exact A].
          - apply IHf; auto. intros; apply Hs; now right. }
        apply HH; auto. eapply Forall2_impl; [|exact CH]. cbv beta. intros f x _ _ H Ew. now destruct (H Ew).
      + intros ro rc E1 E2. apply ev_S in EV. eapply ev_mono; [exact EV|]. cbv beta. intros [|n] HF; [contradiction|].
        cbn [run step]. unfold render_se, render_to_dict. rewrite (frag_sefields d F _ K5), Tr. cbn [bind].
        fold (live (map (fun f => (f, sk_of d f)) (c_fields d))).
        assert (HF' : Forall2 (fun f ys => written f = true -> exists el, rend d (f, sk_of d f) = Ok (mkSstmt el (map TgtKey (names d f)) (option_map fst (sk_of d f))) /\
               mapM (eval P W (run n) (ctxof d (skip_fns d)) rho) el = Ok ys /\ List.length (names d f) = List.length ys /\ names d f <> [] /\
               map Some (names d f) = out_names P W d f /\
               skip_named (run n) (ctxof d (skip_fns d)) (option_map fst (sk_of d f)) (tuple_of ys) (drops P d f (tuple_of ys))) (c_fields d) yss).
        { pose proof (Forall2_Forall2_both _ _ _ _ HF CH) as HF2.
          eapply Forall2_impl; [|exact HF2]. cbv beta. intros f ys Hf _ [H HC] Ew.
          destruct (H Ew) as [el [He [Ne [LN Hy]]]]. destruct (targets_ok d f F Hf) as [T1 [T2 T3]]. exists el.
          split; [|repeat split; auto; apply (skip_known d f (val_of attrs f)); auto; [|now destruct (HC Ew)];
            intros _; rewrite Forall_forall in FA; destruct (FA f Hf) as (_ & _ & _ & _ & S & _); exact (S Ew eq_refl)]. unfold rend. cbn [fst snd option_map]. rewrite He. cbn [bind]. rewrite T1. cbn [bind]. destruct el; congruence. }
        destruct (mapM_total (rend d) (live (map (fun f => (f, sk_of d f)) (c_fields d)))) as [stmts Hst].
        { intros [f o] Hf. apply (live_In d) in Hf as [Ho [Hf Ew]]. cbn [fst snd] in *. subst o.
          destruct (Forall2_in_l _ _ _ f HF' Hf) as [x [_ Hx]]. destruct (Hx Ew) as [el [Hr _]]. eauto. }
        fold (rend d). change (fun fs => rhs <- se_field P (class_fuel P) (se_cfg d true) (fst fs) obj_var ;;
             ts <- se_targets P W (class_fuel P) (c_rename_all d) (c_ser_class_var d) (fst fs) ;;
             match rhs with
             | [] => Raise XSyntax
             | _ => Ok (mkSstmt rhs ts (option_map fst (snd fs)))
             end) with (rend d).
        rewrite Hst. cbn [bind]. rewrite (frag_se_fns d F _ FP). cbn [bind run_se_body]. rewrite E1, E2. fold rho.
        rewrite (run_stmts d (run n) (ctxof d (skip_fns d)) rho eq_refl (c_fields d) yss stmts []); auto.
    - (* tuple *)
      exists (VSeq KTuple (concat (touts_of (c_fields d) yss))). split.
      + intros tg. eapply W_obj_tuple; eauto. rewrite EA.
        assert (HH : forall fs yss, Forall2 (fun f ys => written f = true -> Form false d f (val_of attrs f) ys) fs yss ->
             Forall3 (fun f nv out =>
          (written f = false /\ out = []) \/
          (written f = true /\ f_flatten f = false /\ exists x, FWIRE false d f (snd nv) x /\ out = [x]) \/
          (f_flatten f = true /\ exists d' c' attrs', kid P f = Some d' /\ snd nv = VObj c' attrs' /\
             Forall3 (fun g nv' x => WIRE false (c_tagging d) (snd nv') (f_type g) x) (c_fields d') attrs' out))
          fs (map (fun f => (f_name f, val_of attrs f)) fs) (touts_of fs yss)).
        { induction fs as [|f fs IHf]; intros l G; inversion G as [|? ys ? yss' H1 H3]; subst; [constructor|].
          unfold touts_of. cbn [combine map fst snd]. fold (touts_of fs yss'). constructor; [|apply IHf; auto].
          destruct (written f) eqn:Ew; [|left; auto]. right.
          destruct (H1 eq_refl) as [[A1 A2]|A]; [left; auto|right; exact A]. }
        apply HH; auto. eapply Forall2_impl; [|exact CH]. cbv beta. intros f x _ _ H Ew. now destruct (H Ew).
      + intros ro rc E1 E2. apply ev_S in EV. eapply ev_mono; [exact EV|]. cbv beta. intros [|n] HF; [contradiction|].
        cbn [run step]. unfold render_se, render_to_tuple. rewrite (frag_sefields d F _ K5), Tr. cbn [bind].
        fold (live (map (fun f => (f, sk_of d f)) (c_fields d))).
        assert (HF' : Forall2 (fun f ys => written f = true -> exists el, rendt d (f, sk_of d f) = Ok el /\
               mapM (eval P W (run n) (ctxof d (skip_fns d)) rho) el = Ok ys) (c_fields d) yss).
        { eapply Forall2_impl; [|exact HF]. cbv beta. intros f ys Hf _ H Ew.
          destruct (H Ew) as [el [He [Ne [_ Hy]]]]. exists el. unfold rendt. cbn [fst]. rewrite He. cbn [bind]. split; [|auto]. destruct el; congruence. }
        destruct (mapM_total (rendt d) (live (map (fun f => (f, sk_of d f)) (c_fields d)))) as [stmts Hst].
        { intros [f o] Hf. apply (live_In d) in Hf as [Ho [Hf Ew]]. cbn [fst snd] in *. subst o.
          destruct (Forall2_in_l _ _ _ f HF' Hf) as [x [_ Hx]]. destruct (Hx Ew) as [e [Hr _]]. eauto. }
        change (fun fs => rhs <- se_field P (class_fuel P) (se_cfg d false) (fst fs) obj_var ;;
             match rhs with [] => Raise XSyntax | _ => Ok rhs end) with (rendt d).
        rewrite Hst. cbn [bind]. rewrite (frag_se_fns d F _ FP). cbn [bind run_se_body]. rewrite E1, E2. fold rho.
        destruct (run_tuple_stmts d (run n) (ctxof d (skip_fns d)) rho (c_fields d) yss stmts HF' Hst) as [ll [L1 L2]].
        rewrite L1. cbn [bind]. now rewrite L2.
  Qed.

  (** ** Every annotation *)
  Definition Good2 (d : classdef) (nm co : bool) (t : pytype) (v x : pyval) : Prop :=
    WIRE nm (c_tagging d) v t x /\
      forall cfg var e, se_plain cfg nm co -> se_ty P cfg false var t = Ok e ->
        ev (fun n => forall fns rho, eval P W (run n) (ctxof d fns) rho var = Ok v ->
                                     eval P W (run n) (ctxof d fns) rho e = Ok x).

  Lemma good_list d nm co a l : (forall x, In x l -> SeGood x a) ->
    tyok P W (c_tagging d) co a -> Cov P d a -> sdok d -> Forall (fun x => WT x a) l ->
    exists l', Forall2 (Good2 d nm co a) l l'.
  Proof.
    intros IH T C S F. apply Forall_choice. rewrite Forall_forall in *. intros x Hx.
    destruct (IH x Hx d nm co T C S (F x Hx)) as [y Hy]. exists y. exact Hy.
  Qed.

  Lemma comp_eval d nm co a l l' cfg e : Forall2 (Good2 d nm co a) l l' -> se_plain cfg nm co ->
    se_ty P cfg false (EVar "v") a = Ok e ->
    ev (fun n => forall fns rho, mapM (fun x => eval P W (run n) (ctxof d fns) (("v", x) :: rho) e) l = Ok l').
  Proof.
    intros F Hc He.
    assert (G : ev (fun n => Forall2 (fun x y => forall fns rho, eval P W (run n) (ctxof d fns) (("v", x) :: rho) e = Ok y) l l')).
    { apply ev_Forall2. eapply Forall2_impl; [|exact F]. intros x y _ _ [_ H]. cbv beta.
      eapply ev_mono; [exact (H cfg (EVar "v") e Hc He)|]. cbv beta. intros n Hn fns rho. apply Hn. reflexivity. }
    eapply ev_mono; [exact G|]. cbv beta. intros n Hn fns rho. apply mapM_Ok.
    eapply Forall2_impl; [|exact Hn]. cbv beta. auto.
  Qed.

  Lemma Good2_wire d nm co a l l' : Forall2 (Good2 d nm co a) l l' -> Forall2 (fun x y => WIRE nm (c_tagging d) x a y) l l'.
  Proof. intros F. eapply Forall2_impl; [|exact F]. intros x y _ _ [H _]. exact H. Qed.

  Lemma wire_distinct d nm co a l l' : tyok P W (c_tagging d) co a -> keyty a = true ->
    Forall (fun x => WT x a) l -> Forall2 (fun x y => WIRE nm (c_tagging d) x a y) l l' -> distinct P l ->
    distinct P l' /\ forallb (hashable P) l' = true.
  Proof.
    intros T KT F FW D. split.
    - rewrite <- (map_id l'). apply (distinct_map P (fun x y => WT x a /\ WIRE nm (c_tagging d) x a y) (fun x => x) (fun x => x) l l').
      + apply Forall2_Forall2_l; assumption.
      + intros x y x' y' _ _ [X1 X2] [Y1 Y2]. eapply wire_key; eauto.
      + now rewrite map_id.
    - apply forallb_forall. intros y Hy. destruct (Forall2_in_r _ _ _ _ FW Hy) as [x [Hx Hxy]].
      rewrite Forall_forall in F. eapply wire_key_hashable; eauto.
  Qed.

  Lemma tuple_eval d nm co cfg var : se_plain cfg nm co -> forall ts l l' n0 es0,
    Forall3 (fun t x y => Good2 d nm co t x y) ts l l' ->
    mapMi_from (fun n a => se_ty P cfg false (EIdx var n) a) n0 ts = Ok es0 ->
    ev (fun n => forall fns rho l0, eval P W (run n) (ctxof d fns) rho var = Ok (VSeq KTuple (l0 ++ l)) -> List.length l0 = n0 ->
          mapM (eval P W (run n) (ctxof d fns) rho) es0 = Ok l').
  Proof.
    intros Hc ts l l' n0 es0 F. revert n0 es0. induction F; intros n0 es0 M.
    - simpl in M. injection M as <-. apply ev_always. intros; reflexivity.
    - cbn [mapMi_from] in M. inv_bind M. inv_bind M. injection M as <-.
      destruct H as [_ H]. specialize (H cfg (EIdx var n0) a0 Hc Hb). specialize (IHF _ _ Hb0).
      eapply ev_mono; [exact (ev_and _ _ H IHF)|]. cbv beta. intros n [N1 N2] fns rho l0 E1 E2.
      cbn [mapM]. rewrite (N1 fns rho).
      + cbn [bind]. rewrite (N2 fns rho (l0 ++ [b])); [reflexivity| |rewrite app_length; simpl; lia].
        now rewrite <- app_assoc.
      + cbn [eval]. rewrite E1. cbn [bind getidx]. rewrite <- E2, nth_opt_app. reflexivity.
  Qed.

  Lemma good_tuple d nm co ts l : (forall x t, In x l -> SeGood x t) ->
    Forall (tyok P W (c_tagging d) co) ts -> Forall (Cov P d) ts -> sdok d -> Forall2 (fun t x => WT x t) ts l ->
    exists l', Forall3 (fun t x y => Good2 d nm co t x y) ts l l'.
  Proof.
    intros IH T C S F. induction F.
    - exists []. constructor.
    - inversion T; inversion C; subst. destruct IHF as [l'' H'']; auto.
      { intros; apply IH; now right. }
      destruct (IH y x (or_introl eq_refl) d nm co) as [z Hz]; auto.
      exists (z :: l''). constructor; auto.
  Qed.

  Lemma Forall3_impl {A B C} (R R' : A -> B -> C -> Prop) la lb lc :
    (forall a b c, R a b c -> R' a b c) -> Forall3 R la lb lc -> Forall3 R' la lb lc.
  Proof. intros H; induction 1; constructor; auto. Qed.

  Definition arm_se (d : classdef) (t : pytype) : res (pytype * expr) :=
    e <- se_ty P (union_se_cfg d) false obj_var t ;; _ <- lit (typename P t) ;; Ok (t, e).

  Lemma union_cfg_plain d : se_plain (union_se_cfg d) true false.
  Proof. repeat split. discriminate. Qed.

  Lemma arm_lit t : union_arm P t -> lit (typename P t) = Ok (typename P t).
  Proof.
    intros U. destruct (arm_cases P t U) as [[p ->]|[->|[[c [-> L]]|[_ [_ L]]]]]; unfold lit.
    - now destruct p.
    - reflexivity.
    - now rewrite L.
    - now rewrite L.
  Qed.

  Lemma render_arms d tg l : union_ok P W tg l -> exists arms, render_union_se P d l = Ok arms /\
    Forall2 (fun t a => fst a = t /\ se_ty P (union_se_cfg d) false obj_var t = Ok (snd a)) l arms.
  Proof.
    intros [U _]. unfold render_union_se.
    destruct (mapM_total (arm_se d) l) as [arms H].
    { intros t Ht. rewrite Forall_forall in U. unfold arm_se.
      destruct (se_ty_total P NoSers W TagExternal false (union_se_cfg d) true t (union_cfg_plain d)) with (var := obj_var) as [e He].
      { destruct (arm_cases P t (U t Ht)) as [[p ->]|[->|[[c [-> _]]|[_ [KK _]]]]]; try exact I. now apply carrier_tyok. }
      rewrite He. cbn [bind]. rewrite (arm_lit t (U t Ht)). cbn [bind]. eauto. }
    exists arms. split; [exact H|]. apply mapM_Ok in H. eapply Forall2_impl; [|exact H].
    intros t a _ _ E. unfold arm_se in E. inv_bind E. inv_bind E. injection E as <-. auto.
  Qed.

  (** Containers match lists and mappings only. *)
  Lemma inst_bulk v t : bulk t = true -> is_instance P W v t = true -> (exists s l, v = VSeq s l) \/ (exists m l, v = VMap m l).
  Proof. destruct t; try discriminate; intros _; cbn [is_instance]; destruct v; try discriminate; eauto. Qed.
  Lemma bulk_inst v u : bulk u = false -> (exists s l, v = VSeq s l) \/ (exists m l, v = VMap m l) -> union_arm P u ->
    is_instance P W v u = false.
  Proof.
    intros B X U. destruct (arm_cases P u U) as [[p ->]|[->|[[c [-> _]]|[B' _]]]]; try congruence;
      destruct X as [[s [l ->]]|[m [l ->]]]; try destruct p; reflexivity.
  Qed.
  Lemma wt_bulk v t : bulk t = true -> WT v t -> (exists s l, v = VSeq s l) \/ (exists m l, v = VMap m l).
  Proof. destruct t; try discriminate; intros _ H; inversion H; subst; eauto. Qed.
  Lemma head_inst {A} (f : A -> bool) l : (forall x, In x l -> f x = true) -> head_ok f l = true.
  Proof. destruct l; simpl; auto. Qed.
  Lemma inst_carrier t : forall v, carrier P t -> WT v t -> is_instance P W v t = true.
  Proof.
    induction t using pytype_ind'; intros v KK HW; try contradiction.
    - inversion HW; subst. destruct p, v; try discriminate; reflexivity.
    - inversion HW; subst. cbn. unfold issub. now rewrite String.eqb_refl.
    - inversion HW; subst. destruct p, v; try discriminate; reflexivity.
    - reflexivity.
    - apply carrier_opt in KK as [a [-> [Ha KK]]]. cbn [is_instance]. apply existsb_exists. inversion HW; subst.
      + exists TNone. split; [right; now left|reflexivity].
      + exists a. split; [now left|]. rewrite Forall_forall in H. apply (H a); auto. now left.
      + cbn [is_opt] in *. rewrite Ha in *. discriminate.
    - inversion HW; subst. cbn [is_instance carrier] in *. rewrite head_inst; [destruct k; reflexivity|].
      match goal with F : Forall _ l |- _ => rewrite Forall_forall in F end. auto.
    - inversion HW; subst. cbn [is_instance carrier] in *. destruct KK as [K1 [_ K2]].
      rewrite head_inst; [destruct k; reflexivity|]. match goal with F : Forall _ l |- _ => rewrite Forall_forall in F end. auto.
    - inversion HW; subst. cbn [is_instance carrier] in *. apply head_inst.
      match goal with F : Forall _ l |- _ => rewrite Forall_forall in F end. auto.
    - inversion HW; subst. cbn [is_instance carrier] in *. apply head_inst.
      match goal with F : Forall _ l |- _ => rewrite Forall_forall in F; intros x Hx; destruct (F x Hx) end. apply IHt; tauto.
    - inversion HW; subst. cbn [is_instance carrier] in *. apply head_inst.
      match goal with F : Forall _ l |- _ => rewrite Forall_forall in F; intros x Hx; destruct (F x Hx) end.
      rewrite IHt1, IHt2; tauto.
    - apply carrier_tuple in KK as [_ KK]. inversion HW; subst. cbn [is_instance].
      match goal with F : Forall2 _ l _ |- _ => rename F into FF end. clear HW.
      induction FF as [|t x ts xs HX FF IH]; [reflexivity|]. inversion KK; inversion H; subst. rewrite IH by auto.
      match goal with G : forall v, carrier P t -> _ |- _ => rewrite G by auto end. reflexivity.
    - inversion HW; subst. cbn [is_instance carrier] in *. apply forallb_forall.
      match goal with F : Forall _ l |- _ => rewrite Forall_forall in F end. auto.
    - inversion HW; subst. cbn [is_instance]. destruct b; destruct v; try contradiction; destruct k; try contradiction;
        try (destruct k0); try contradiction; reflexivity.
    - inversion HW; subst; cbn; apply String.eqb_refl.
    - inversion HW; subst; cbn. unfold obj_isa. now rewrite String.eqb_refl.
    - inversion HW; subst; cbn. unfold issub. now rewrite String.eqb_refl.
    - inversion HW; subst; cbn. unfold issub. now rewrite String.eqb_refl.
  Qed.

  Lemma inst_prim_arm p v t : prim_val p v = true -> union_arm P t -> is_instance P W v t = true -> exists q, t = TPrim q.
  Proof.
    intros V U H. destruct (arm_cases P t U) as [[q ->]|[->|[[c [-> _]]|[B _]]]]; eauto; try (destruct p, v; discriminate).
    apply inst_bulk in H as [[s [l ->]]|[m [l ->]]]; auto; destruct p; discriminate.
  Qed.
  Lemma inst_none_arm t : union_arm P t -> is_instance P W VNone t = true -> t = TNone.
  Proof.
    intros U H. destruct (arm_cases P t U) as [[q ->]|[->|[[c [-> _]]|[B _]]]]; eauto; try (try destruct q; discriminate).
    apply inst_bulk in H as [[s [l E]]|[m [l E]]]; auto; discriminate.
  Qed.
  Lemma inst_prim_self p v : prim_val p v = true -> is_instance P W v (TPrim p) = true.
  Proof. destruct p, v; simpl; try discriminate; reflexivity. Qed.

  (** The first matching arm of a union *)
  Lemma run_union_first d (call : callreq -> res pyval) fns l arms v (R : pytype -> Prop) :
    Forall2 (fun t a => fst a = t /\ se_ty P (union_se_cfg d) false obj_var t = Ok (snd a)) l arms ->
    (exists t, In t l /\ is_instance P W v t = true) ->
    exists t e, In t l /\ is_instance P W v t = true /\ se_ty P (union_se_cfg d) false obj_var t = Ok e /\
      run_union_se P W call (ctxof d fns) arms v = run_union_se P W call (ctxof d fns) [(t, e)] v.
  Proof.
    intros F. induction F as [|t [t' e] l arms [E1 E2] F IH]; intros [u [Hu Hi]]; [contradiction|].
    cbn [fst snd] in *. subst t'. destruct (is_instance P W v t) eqn:E.
    - exists t, e. repeat split; auto; [now left|]. cbn [run_union_se]. rewrite E. reflexivity.
    - destruct Hu as [->|Hu]; [congruence|]. destruct IH as [t1 [e1 [A [B [C D]]]]]; [eauto|].
      exists t1, e1. repeat split; auto; [now right|]. rewrite <- D. cbn [run_union_se]. now rewrite E.
  Qed.

  Lemma coerce_same cls field t p v : (t = TPrim p \/ exists n, t = TNewType n p) -> prim_val p v = true ->
    coerce_object P W cls field t v = Ok v.
  Proof.
    intros H E. pose proof (prim_val_not_none _ _ E). unfold coerce_object.
    assert (G : call_ctor P W t v = Ok v).
    { destruct H as [->|[n ->]]; cbn [call_ctor]; [now apply prim_val_ctor|reflexivity]. }
    destruct v; rewrite ?G; congruence || reflexivity.
  Qed.

  Lemma tagged_se d c v x fns call e y :
    variant_ok P W (c_tagging d) y -> get_class P c = Some y -> WIRE true (c_tagging d) v (TClass c) x ->
    is_instance P W v (TClass c) = true ->
    eval P W call (ctxof d fns) [("obj", v)] e = Ok x ->
    exists z, tagged (c_tagging d) (typename P (TClass c)) x z /\
      run_union_se P W call (ctxof d fns) [(TClass c, e)] v = Ok z.
  Proof.
    intros V G X I E. cbn [run_union_se]. rewrite I, E. cbn [bind taggable]. cbn [se_ctx x_cls].
    destruct (c_tagging d) as [|tag|tag content|]; cbn [variant_ok] in V.
    - eexists. split; [|reflexivity]. reflexivity.
    - destruct V as [V1 [V2 V3]]. inversion X; subst.
      + assert (d0 = y) by congruence. subst d0.
        assert (FR : dget es (concat outs) (VStr tag) = None).
        { match goal with H : Forall3 _ (c_fields y) _ outs |- _ => rename H into FW end.
          assert (FR : forall (R : fielddef -> string * pyval -> list (pyval * pyval) -> Prop) fs at0 outs,
             (forall f nv out, In f fs -> R f nv out -> forall k x, In (k, x) out -> exists s, k = VStr s /\ s <> tag) ->
             Forall3 R fs at0 outs -> dget es (concat outs) (VStr tag) = None).
          { clear. intros R fs at0 outs HR F. induction F as [|f nv out fs at0 outs Hf F IHF]; [reflexivity|].
            cbn [concat]. rewrite dget_app. rewrite IHF by (intros; eapply HR; eauto; now right).
            specialize (HR f nv out (or_introl eq_refl) Hf). clear -HR. induction out as [|[k x] out IH]; [reflexivity|].
            destruct (HR k x (or_introl eq_refl)) as [s [-> N]]. simpl. destruct (String.eqb_spec s tag); [congruence|]. apply IH.
            intros; eapply HR; right; eauto. }
          refine (FR _ _ _ _ _ FW). intros f nv out Hf Hout k x0 Hin. specialize (V3 f Hf).
          destruct Hout as [[_ ->]|[[_ [Fl [k0 [x1 [Hk [_ RO]]]]]]|[Fl [d' [c' [at' [l [EK [_ [F3 [[_ [_ ->]]|[_ ->]]]]]]]]]]]]; try contradiction.
          - apply rule_out in RO as [->| ->]; [contradiction|]. destruct Hin as [Ein|[]]. injection Ein as <- <-. exists k0. split; [reflexivity|]. intros ->. apply V3.
            unfold entry_keys, kid. rewrite Fl. unfold key_names. rewrite Hk. now left.
          - destruct (Forall3_in _ _ _ _ _ F3 Hin) as [g [nv' [Hg [k0 [x1 [Hk [_ Ein]]]]]]]. injection Ein as -> ->. exists k0. split; [reflexivity|]. intros ->. apply V3.
            unfold entry_keys. rewrite EK. apply in_concat. exists (key_names W d' g). split; [now apply in_map|]. unfold key_names. rewrite Hk. now left. }
        rewrite dset_fresh by exact FR. eexists. split; [|reflexivity]. exists (concat outs). auto.
      + congruence.
    - assert (FR : dget es [(VStr content, x)] (VStr tag) = None).
      { simpl. destruct (String.eqb_spec content tag); congruence. }
      rewrite dset_fresh by exact FR. eexists. split; [|reflexivity]. reflexivity.
    - contradiction.
  Qed.

  Lemma obj_isa_refl c : obj_isa P c c = true.
  Proof. unfold obj_isa. now rewrite String.eqb_refl. Qed.

  Lemma run_S n q : run (S n) q = step P W K (run n) q.
  Proof. reflexivity. Qed.

  Lemma wt_union_inv v l : WT v (TUnion l) -> is_opt (TUnion l) = false -> exists t, In t l /\ WT v t.
  Proof.
    intros H O. inversion H; subst; eauto; cbn [is_opt] in O;
      match goal with E : is_none _ = false |- _ => rewrite E in O; discriminate end.
  Qed.

  Lemma wt_counter_inv v a : WT v (TCounter a) -> exists l, v = VMap MCounter l /\ Forall (fun kv => WT (fst kv) a) l /\ distinct P (map fst l).
  Proof. intros H; inversion H; subst. exists l. split; auto. split; auto. eapply Forall_impl; [|eassumption]. now intros kv [? _]. Qed.
  Lemma wt_dict_inv v k a b : WT v (TDict k a b) -> exists m l, v = VMap m l /\ dict_kind k b m /\
    Forall (fun kv => WT (fst kv) a /\ WT (snd kv) b) l /\ distinct P (map fst l).
  Proof. intros H; inversion H; subst; eauto 10. Qed.

  Theorem se_good : forall n v, vsize v <= n -> forall t, SeGood v t.
  Proof.
    induction n; intros v Hn; [destruct v; simpl in Hn; lia|].
    assert (IH : forall x, vsize x < vsize v -> forall t, SeGood x t) by (intros; apply IHn; lia).
    clear IHn.
    assert (HC : forall c, SeGood v (TClass c)).
    { intros c d nm co T C S HW. assert (HV : exists attrs, v = VObj c attrs) by (inversion HW; eauto).
      destruct HV as [attrs ->]. destruct (wt_obj_inv _ _ HW) as [d' [Hd _]].
      destruct (se_obj c d' attrs nm Hd HW) as [x [X1 X2]].
      { exact IH. }
      exists x. split; [apply X1|]. intros cfg var e Hc He. rewrite (se_ty_simple P NoSers cfg nm co) in He by exact Hc.
      cbn [se_simple] in He. injection He as <-. eapply ev_mono; [exact (X2 (Some reuse) (Some cv) eq_refl eq_refl)|]. cbv beta.
      intros m Hm fns rho E. cbn [eval]. rewrite E. cbn [bind]. rewrite Hd. cbn [bind of_option].
      destruct Hc as [-> _]. exact Hm. }
    induction t using pytype_ind'; intros d nm co T C S HW.
    - (* prim *) exists v. split; [inversion HW; subst; now constructor|]. inversion HW; subst. intros cfg var e Hc He.
      rewrite (se_ty_simple P NoSers cfg nm co) in He by exact Hc. cbn [se_simple] in He.
      apply ev_always. intros m fns rho E. destruct (r_suppress cfg); injection He as <-; [exact E|].
      cbn [eval resolve bind]. rewrite E. cbn [bind]. eapply coerce_same; eauto.
    - (* subclass *) exists v. split; [inversion HW; subst; now constructor|]. intros cfg var e Hc He.
      rewrite (se_ty_simple P NoSers cfg nm co) in He by exact Hc. cbn [se_simple] in He.
      destruct Hc as [_ [_ [_ Hs]]]. destruct T as [-> _].
      destruct (r_suppress cfg); [|discriminate (Hs eq_refl)]. injection He as <-. apply ev_always. auto.
    - (* NewType *) exists v. split; [inversion HW; subst; now constructor|]. inversion HW; subst. intros cfg var e Hc He.
      rewrite (se_ty_simple P NoSers cfg nm co) in He by exact Hc. cbn [se_simple] in He.
      apply ev_always. intros m fns rho E. destruct (r_suppress cfg); injection He as <-; [exact E|].
      cbn [eval resolve bind]. rewrite E. cbn [bind]. eapply coerce_same; eauto.
    - (* None *) inversion HW; subst. exists VNone. split; [constructor|]. intros cfg var e Hc He.
      rewrite (se_ty_simple P NoSers cfg nm co) in He by exact Hc. injection He as <-. apply ev_always. reflexivity.
    - (* Any *) exists v. split; [constructor|]. inversion HW; subst. intros cfg var e Hc He.
      rewrite (se_ty_simple P NoSers cfg nm co) in He by exact Hc. injection He as <-.
      eapply ev_mono; [exact (plain_to_obj TagExternal _ v (le_n _) H true (Some false) (Some false) skip (Some (TagExternal, TAny)) (or_intror eq_refl))|].
      cbv beta. intros m Hm fns rho E. cbn [eval]. rewrite E. exact Hm.
    - (* union *)
      destruct (is_opt (TUnion l)) eqn:O.
      + destruct (opt_shape l O) as [a [-> Ha]]. pose proof (tyok_opt P W _ _ _ T Ha) as Ta.
        assert (Ca : Cov P d a) by (eapply Cov_sub; [exact C|]; eapply sub_union; [now left|constructor]).
        inversion HW; subst.
        * exists VNone. split; [now constructor|]. intros cfg var e Hc He.
          rewrite (se_ty_simple P NoSers cfg nm co) in He by exact Hc. unfold se_simple in He. rewrite opt_arg_some in He by exact Ha.
          inv_bind He. injection He as <-. apply ev_always. intros m fns rho E. cbn [eval]. rewrite E. reflexivity.
        * inversion H; subst. destruct (H6 d nm co Ta Ca S H5) as [x [X1 X2]]. exists x. split; [now constructor|].
          intros cfg var e Hc He.
          rewrite (se_ty_simple P NoSers cfg nm co) in He by exact Hc. unfold se_simple in He. rewrite opt_arg_some in He by exact Ha.
          inv_bind He. injection He as <-. eapply ev_mono; [exact (X2 cfg var _ Hc Hb)|]. cbv beta.
          intros m Hm fns rho E. cbn [eval]. rewrite E. cbn [bind]. destruct v; [congruence|..]; cbn; now apply Hm.
        * congruence.
      + pose proof (tyok_union P W _ _ _ T O) as U.
        destruct (wt_union_inv _ _ HW O) as [t [Ht Hv]]. clear HW.
        destruct S as [[N1 [N2 N3]] [fns0 S0]]. assert (S : sdok d) by (split; [repeat split; assumption|eauto]).
        assert (FU : find_union P d "union_se" (union_func_name P "union_se" l) = Some l).
        { apply find_union_ok; [assumption|]. apply C. constructor. }
        destruct (render_arms d _ _ U) as [arms [RA FA]].
        pose proof U as [UA [UC [UD _]]].
        assert (UT : union_arm P t) by (rewrite Forall_forall in UA; auto).
        assert (RED : forall m fns rho var, eval P W (run (1 + m)) (ctxof d fns) rho var = Ok v ->
           eval P W (run (1 + m)) (ctxof d fns) rho (EUnionSe (union_func_name P "union_se" l) var) =
           run_union_se P W (run m) (ctxof d fns0) arms v).
        { intros m fns rho var E. cbn [eval]. rewrite E. cbn [bind se_ctx x_cls x_reuse x_conv x_skip].
          cbn [Nat.add]. rewrite run_S. cbn [step]. rewrite FU. cbn [of_option bind]. rewrite RA. cbn [bind]. rewrite S0. reflexivity. }
        assert (GO : forall x, WIRE nm (c_tagging d) v (TUnion l) x ->
                  ev (fun m => run_union_se P W (run m) (ctxof d fns0) arms v = Ok x) ->
                  exists x, Good2 d nm co (TUnion l) v x).
        { intros x X1 X2. exists x. split; [exact X1|]. intros cfg var e Hc He.
          rewrite (se_ty_simple P NoSers cfg nm co) in He by exact Hc. unfold se_simple in He. rewrite opt_arg_none in He by exact O.
          injection He as <-. apply ev_S in X2. eapply ev_mono; [exact X2|]. cbv beta. intros [|m] Hm; [contradiction|].
          intros fns rho E. etransitivity; [exact (RED m fns rho var E)|exact Hm]. }
        destruct (arm_cases P t UT) as [[p ->]|[->|[[c [-> _]]|[BT [KT _]]]]].
        * (* primitive arm *)
          inversion Hv; subst. apply (GO v).
          { eapply W_union_other; eauto. now constructor. }
          apply ev_always. intros m.
          destruct (run_union_first d (run m) fns0 l arms v (fun _ => True) FA) as [t1 [e1 [A1 [A2 [A3 A4]]]]].
          { exists (TPrim p). split; [assumption|]. now apply inst_prim_self. }
          rewrite A4. destruct (inst_prim_arm p v t1) as [q ->]; auto.
          { rewrite Forall_forall in UA; auto. }
          rewrite (se_ty_simple P NoSers _ true false) in A3 by apply union_cfg_plain. injection A3 as <-.
          cbn [run_union_se]. rewrite A2. reflexivity.
        * (* None *)
          inversion Hv; subst. apply (GO VNone).
          { eapply W_union_other; eauto. constructor. }
          apply ev_always. intros m.
          destruct (run_union_first d (run m) fns0 l arms VNone (fun _ => True) FA) as [t1 [e1 [A1 [A2 [A3 A4]]]]].
          { exists TNone. split; [assumption|]. reflexivity. }
          rewrite A4. assert (t1 = TNone) by (apply inst_none_arm; auto; rewrite Forall_forall in UA; auto). subst t1.
          rewrite (se_ty_simple P NoSers _ true false) in A3 by apply union_cfg_plain. injection A3 as <-.
          cbn [run_union_se]. rewrite A2. reflexivity.
        * (* class *)
          assert (HV : exists attrs, v = VObj c attrs) by (inversion Hv; eauto). destruct HV as [attrs ->].
          destruct (UC c Ht) as [dc [Hdc HVar]].
          destruct (HC c d true false) as [x [X1 X2]]; auto.
          { exact I. } { eapply Cov_sub; [exact C|]. eapply sub_union; [exact Ht|constructor]. }
          assert (II : is_instance P W (VObj c attrs) (TClass c) = true) by (cbn; apply obj_isa_refl).
          assert (ARM : forall m, exists e1, se_ty P (union_se_cfg d) false obj_var (TClass c) = Ok e1 /\
              run_union_se P W (run m) (ctxof d fns0) arms (VObj c attrs) = run_union_se P W (run m) (ctxof d fns0) [(TClass c, e1)] (VObj c attrs)).
          { intros m. destruct (run_union_first d (run m) fns0 l arms (VObj c attrs) (fun _ => True) FA) as [t1 [e1 [A1 [A2 [A3 A4]]]]]; [eauto|].
            assert (t1 = TClass c).
            { rewrite Forall_forall in UA. destruct (arm_cases P t1 (UA t1 A1)) as [[q ->]|[->|[[c0 [-> _]]|[B1 _]]]].
              - destruct q; discriminate A2. - discriminate A2.
              - cbn in A2. destruct (String.eqb_spec c0 c); [now subst|]. destruct (UD c c0) as [_ Z]; auto. congruence.
              - apply inst_bulk in A2 as [[s1 [l1 A2]]|[m1 [l1 A2]]]; auto; discriminate A2. }
            subst. exists e1. auto. }
          destruct (ARM 0) as [e1 [He1 _]].
          specialize (X2 _ obj_var e1 (union_cfg_plain d) He1).
          assert (TG : exists z, tagged (c_tagging d) (typename P (TClass c)) x z /\
             ev (fun m => run_union_se P W (run m) (ctxof d fns0) [(TClass c, e1)] (VObj c attrs) = Ok z)).
          { destruct X2 as [M HM].
            destruct (tagged_se d c (VObj c attrs) x fns0 (run M) e1 dc HVar Hdc X1 II) as [z [Z1 Z2]].
            { apply HM; auto. }
            exists z. split; [exact Z1|]. exists M. intros m Hm.
            destruct (tagged_se d c (VObj c attrs) x fns0 (run m) e1 dc HVar Hdc X1 II) as [z' [Z1' Z2']].
            { apply HM; auto. }
            rewrite Z2'. f_equal. revert Z1 Z1'. destruct (c_tagging d); cbn [tagged]; try congruence.
            intros [l1 [-> ->]] [l2 [E2 ->]]. congruence. }
          destruct TG as [z [Z1 Z2]]. apply (GO z).
          { eapply W_union_class; eauto. }
          eapply ev_mono; [exact Z2|]. cbv beta. intros m Hm. destruct (ARM m) as [e2 [He2 ->]].
          assert (e2 = e1) by congruence. subst. exact Hm.
        * (* container *)
          assert (Ct : Cov P d t) by (eapply Cov_sub; [exact C|]; eapply sub_union; [exact Ht|constructor]).
          rewrite Forall_forall in H. destruct (H t Ht d true false (carrier_tyok P W _ t KT) Ct S Hv) as [x [X1 X2]].
          apply (GO x).
          { eapply W_union_other; eauto. now destruct t. }
          destruct (render_arms d _ _ U) as [arms' [RA' FA']]. rewrite RA in RA'. injection RA' as <-.
          assert (ARM : forall m, exists e1, se_ty P (union_se_cfg d) false obj_var t = Ok e1 /\
              run_union_se P W (run m) (ctxof d fns0) arms v = run_union_se P W (run m) (ctxof d fns0) [(t, e1)] v).
          { intros m. destruct (run_union_first d (run m) fns0 l arms v (fun _ => True) FA) as [t1 [e1 [A1 [A2 [A3 A4]]]]].
            { exists t. split; auto. now apply inst_carrier. }
            assert (t1 = t).
            { rewrite Forall_forall in UA. destruct (bulk t1) eqn:B1; [eapply union_bulk_unique; eauto|].
              rewrite (bulk_inst v t1 B1) in A2; [discriminate A2|eapply wt_bulk; eauto|auto]. }
            subst. eauto. }
          destruct (ARM 0) as [e1 [He1 _]].
          eapply ev_mono; [exact (X2 _ obj_var e1 (union_cfg_plain d) He1)|]. cbv beta. intros m Hm.
          destruct (ARM m) as [e2 [He2 ->]]. assert (e2 = e1) by congruence. subst e2. cbn [run_union_se].
          rewrite inst_carrier by auto. rewrite (Hm fns0 [("obj", v)]) by reflexivity. cbn [bind]. now destruct t.
    - (* list *)
      inversion HW; subst. cbn [tyok] in T.
      destruct (good_list d nm co t l) as [l' F]; auto.
      { intros x Hx. apply IH. now apply vsize_seq. } { eapply Cov_sub; [exact C|]. constructor; constructor. }
      exists (VSeq KList l'). split; [constructor; eapply Good2_wire; eauto|]. intros cfg var e Hc He.
      rewrite (se_ty_simple P NoSers cfg nm co) in He by exact Hc. cbn [se_simple] in He. inv_bind He. injection He as <-.
      eapply ev_mono; [exact (comp_eval _ _ _ _ _ _ _ _ F Hc Hb)|]. cbv beta. intros m Hm fns rho E.
      cbn [eval]. rewrite E. cbn [bind iter]. rewrite Hm. reflexivity.
    - (* set *)
      inversion HW; subst. destruct T as [T1 T2].
      destruct (good_list d nm co t l) as [l' F]; auto.
      { intros x Hx. apply IH. now apply vsize_seq. } { eapply Cov_sub; [exact C|]. constructor; constructor. }
      exists (VSeq (if cv then KList else KSet) l'). split; [constructor; eapply Good2_wire; eauto|]. intros cfg var e Hc He.
      rewrite (se_ty_simple P NoSers cfg nm co) in He by exact Hc. cbn [se_simple] in He. inv_bind He. injection He as <-.
      destruct (wire_distinct d nm co t l l') as [D1 D2]; auto; [now apply Good2_wire in F|].
      eapply ev_mono; [exact (comp_eval _ _ _ _ _ _ _ _ F Hc Hb)|]. cbv beta. intros m Hm fns rho E.
      cbn [eval]. cbn [bind]. rewrite truthy_bool. cbn [se_ctx x_conv].
      destruct cv; rewrite E; cbn [bind iter]; rewrite Hm; cbn [bind]; [reflexivity|].
      now apply mk_seq_distinct.
    - (* deque *)
      inversion HW; subst. cbn [tyok] in T.
      destruct (good_list d nm co t l) as [l' F]; auto.
      { intros x Hx. apply IH. now apply vsize_seq. } { eapply Cov_sub; [exact C|]. constructor; constructor. }
      exists (VSeq KList l'). split; [constructor; eapply Good2_wire; eauto|]. intros cfg var e Hc He.
      rewrite (se_ty_simple P NoSers cfg nm co) in He by exact Hc. cbn [se_simple] in He. inv_bind He. injection He as <-.
      eapply ev_mono; [exact (comp_eval _ _ _ _ _ _ _ _ F Hc Hb)|]. cbv beta. intros m Hm fns rho E.
      cbn [eval]. rewrite E. cbn [bind iter]. rewrite Hm. reflexivity.
    - (* Counter *)
      apply wt_counter_inv in HW as [l [-> [H1 HD]]]. destruct T as [T1 T2].
      assert (FK : Forall (fun x => WT x t) (map fst l)).
      { apply Forall_forall. intros x Hx. apply in_map_iff in Hx as [kv [<- Hkv]]. rewrite Forall_forall in H1. auto. }
      destruct (good_list d nm co t (map fst l)) as [ks F]; auto.
      { intros x Hx. apply in_map_iff in Hx as [kv [<- Hkv]]. apply IH. now apply vsize_map. }
      { eapply Cov_sub; [exact C|]. constructor; constructor. }
      destruct (wire_distinct d nm co t (map fst l) ks) as [D1 D2]; auto; [now apply Good2_wire in F|].
      set (l' := combine ks (map snd l)).
      assert (F' : Forall2 (fun kv kv' => Good2 d nm co t (fst kv) (fst kv') /\ snd kv' = snd kv) l l').
      { subst l'. clear -F. revert ks F. induction l as [|[a b] l IHl]; intros ks F; inversion F; subst; simpl; constructor; auto. }
      assert (K' : map fst l' = ks).
      { subst l'. clear -F. revert ks F. induction l as [|[a b] l IHl]; intros ks F; inversion F; subst; simpl; f_equal; auto. }
      exists (VMap MDict l'). split.
      { constructor. eapply Forall2_impl; [|exact F']. intros a b _ _ [[Z _] Z']. auto. }
      intros cfg var e Hc He.
      rewrite (se_ty_simple P NoSers cfg nm co) in He by exact Hc. cbn [se_simple] in He. inv_bind He. injection He as <-.
      assert (EV : ev (fun n => Forall2 (fun kv kv' => forall fns rho, eval P W (run n) (ctxof d fns) (("k", fst kv) :: ("v", snd kv) :: rho) a = Ok (fst kv')) l l')).
      { apply ev_Forall2. eapply Forall2_impl; [|exact F']. intros x y _ _ [[_ G] _]. cbv beta.
        eapply ev_mono; [exact (G cfg (EVar "k") a Hc Hb)|]. cbv beta. intros m Hm fns rho. apply Hm. reflexivity. }
      eapply ev_mono; [exact EV|]. cbv beta. intros m Hm fns rho E.
      cbn [eval]. rewrite E. cbn [bind items].
      assert (MM : mapM (fun kv : pyval * pyval => k <- eval P W (run m) (ctxof d fns) (("k", fst kv) :: ("v", snd kv) :: rho) a ;;
          x <- of_option XName (slookup "v" (("k", fst kv) :: ("v", snd kv) :: rho)) ;;
          (if hashable P k then Ok (k, x) else Raise XType)) l = Ok l').
      { apply mapM_Ok. eapply Forall2_impl; [|exact (Forall2_and _ _ _ _ Hm F')]. cbv beta. intros x y _ Hy [A [_ B]].
        rewrite A. cbn [bind slookup String.eqb]. cbn.
        assert (HH : hashable P (fst y) = true).
        { rewrite forallb_forall in D2. apply D2. rewrite <- K'. now apply in_map. }
        rewrite HH, <- B. now destruct y. }
      rewrite MM. cbn [bind]. rewrite mk_map_distinct; rewrite ?K'; auto.
    - (* dict *)
      apply wt_dict_inv in HW as [mk [l [-> [_ [H4 HD]]]]]. destruct T as [T1 [T2 [T3 T4]]].
      assert (FK : Forall (fun x => WT x t1) (map fst l)).
      { apply Forall_forall. intros x Hx. apply in_map_iff in Hx as [kv [<- Hkv]]. rewrite Forall_forall in H4. now apply H4. }
      assert (FV : Forall (fun x => WT x t2) (map snd l)).
      { apply Forall_forall. intros x Hx. apply in_map_iff in Hx as [kv [<- Hkv]]. rewrite Forall_forall in H4. now apply H4. }
      destruct (good_list d nm co t1 (map fst l)) as [ks F]; auto.
      { intros x Hx. apply in_map_iff in Hx as [kv [<- Hkv]]. apply IH. now apply vsize_map. }
      { eapply Cov_sub; [exact C|]. apply sub_dict_k; constructor. }
      destruct (good_list d nm co t2 (map snd l)) as [vs G]; auto.
      { intros x Hx. apply in_map_iff in Hx as [kv [<- Hkv]]. apply IH. now apply vsize_map. }
      { eapply Cov_sub; [exact C|]. apply sub_dict_v; constructor. }
      destruct (wire_distinct d nm co t1 (map fst l) ks) as [D1 D2]; auto; [now apply Good2_wire in F|].
      set (l' := combine ks vs).
      assert (F' : Forall2 (fun kv kv' => Good2 d nm co t1 (fst kv) (fst kv') /\ Good2 d nm co t2 (snd kv) (snd kv')) l l').
      { subst l'. clear -F G. revert ks vs F G. induction l as [|[a b] l IHl]; intros ks vs F G; inversion F; inversion G; subst; simpl; constructor; auto. }
      assert (K' : map fst l' = ks).
      { subst l'. clear -F G. revert ks vs F G. induction l as [|[a b] l IHl]; intros ks vs F G; inversion F; inversion G; subst; simpl; f_equal; auto. }
      exists (VMap MDict l'). split.
      { constructor. eapply Forall2_impl; [|exact F']. intros a b _ _ [[Z _] [Z' _]]. auto. }
      intros cfg var e Hc He.
      rewrite (se_ty_simple P NoSers cfg nm co) in He by exact Hc. cbn [se_simple] in He. inv_bind He. inv_bind He. injection He as <-.
      assert (EV : ev (fun n => Forall2 (fun kv kv' => forall fns rho,
           eval P W (run n) (ctxof d fns) (("k", fst kv) :: ("v", snd kv) :: rho) a = Ok (fst kv') /\
           eval P W (run n) (ctxof d fns) (("k", fst kv) :: ("v", snd kv) :: rho) a0 = Ok (snd kv')) l l')).
      { apply ev_Forall2. eapply Forall2_impl; [|exact F']. intros x y _ _ [[_ G1] [_ G2]]. cbv beta.
        eapply ev_mono; [exact (ev_and _ _ (G1 cfg (EVar "k") a Hc Hb) (G2 cfg (EVar "v") a0 Hc Hb0))|].
        cbv beta. intros m [M1 M2] fns rho. split; [apply M1|apply M2]; reflexivity. }
      eapply ev_mono; [exact EV|]. cbv beta. intros m Hm fns rho E.
      cbn [eval]. rewrite E. cbn [bind items].
      assert (MM : mapM (fun kv : pyval * pyval => k <- eval P W (run m) (ctxof d fns) (("k", fst kv) :: ("v", snd kv) :: rho) a ;;
          x <- eval P W (run m) (ctxof d fns) (("k", fst kv) :: ("v", snd kv) :: rho) a0 ;;
          (if hashable P k then Ok (k, x) else Raise XType)) l = Ok l').
      { apply mapM_Ok. eapply Forall2_impl; [|exact Hm]. cbv beta. intros x y _ Hy HA.
        destruct (HA fns rho) as [A B]. rewrite A. cbn [bind]. rewrite B. cbn [bind].
        assert (HH : hashable P (fst y) = true).
        { rewrite forallb_forall in D2. apply D2. rewrite <- K'. now apply in_map. }
        rewrite HH. destruct y; reflexivity. }
      rewrite MM. cbn [bind]. rewrite mk_map_distinct; rewrite ?K'; auto.
    - (* tuple *)
      assert (HV : exists vs, v = VSeq KTuple vs /\ Forall2 (fun t x => WT x t) l vs) by (inversion HW; subst; eauto).
      destruct HV as [vs [-> FV]].
      destruct (tyok_tuple P W _ _ _ T) as [T1 T2].
      destruct (good_tuple d nm co l vs) as [l' F]; auto.
      { intros x t Hx. apply IH. now apply vsize_seq. }
      { apply Forall_forall. intros x Hx. eapply Cov_sub; [exact C|]. eapply sub_tuple; eauto; constructor. }
      exists (VSeq KTuple l'). split.
      { constructor. eapply Forall3_impl; [|exact F]. intros a b c0 [Z _]; exact Z. }
      intros cfg var e Hc He.
      rewrite (se_ty_simple P NoSers cfg nm co) in He by exact Hc. cbn [se_simple] in He.
      destruct l as [|a l]; [congruence|]. inv_bind He. injection He as <-.
      eapply ev_mono; [exact (tuple_eval d nm co cfg var Hc _ _ _ _ _ F Hb)|]. cbv beta. intros m Hm fns rho E.
      cbn [eval]. rewrite (Hm fns rho [] E eq_refl). reflexivity.
    - (* tuple of any length *)
      inversion HW; subst. cbn [tyok] in T.
      destruct (good_list d nm co t l) as [l' F]; auto.
      { intros x Hx. apply IH. now apply vsize_seq. } { eapply Cov_sub; [exact C|]. constructor; constructor. }
      exists (VSeq KTuple l'). split; [constructor; eapply Good2_wire; eauto|]. intros cfg var e Hc He.
      rewrite (se_ty_simple P NoSers cfg nm co) in He by exact Hc. cbn [se_simple] in He. inv_bind He. injection He as <-.
      eapply ev_mono; [exact (comp_eval _ _ _ _ _ _ _ _ F Hc Hb)|]. cbv beta. intros m Hm fns rho E.
      cbn [eval]. rewrite E. cbn [bind iter]. rewrite Hm. reflexivity.
    - (* unsubscripted containers *)
      assert (BV : bare_val P raw b v) by (inversion HW; assumption).
      assert (GO : forall x, WIRE nm (c_tagging d) v (TBare b) x ->
               (forall cfg var e, se_plain cfg nm co -> se_simple P cfg var (TBare b) = Ok e -> forall call fns rho,
                  eval P W call (ctxof d fns) rho var = Ok v -> eval P W call (ctxof d fns) rho e = Ok x) ->
               exists x, Good2 d nm co (TBare b) v x).
      { intros x X1 X2. exists x. split; [exact X1|]. intros cfg var e Hc He.
        rewrite (se_ty_simple P NoSers cfg nm co) in He by exact Hc. apply ev_always. intros m fns rho E. eapply X2; eauto. }
      destruct b as [[]|[]|[]| | |]; destruct v as [| | | | | |[] l|[| |] l| | | | | ]; cbn [bare_val] in BV; try contradiction.
      1-3: apply (GO (VSeq KList l)); [constructor|]; intros cfg var e Hc He call fns rho E; cbn [se_simple] in He;
           injection He as <-; first [exact E | cbn [eval]; rewrite E; reflexivity].
      1-3: apply (GO (VSeq (if cv then KList else KSet) l)); [constructor|]; intros cfg var e Hc He call fns rho E; cbn [se_simple] in He;
           injection He as <-; cbn [eval bind]; rewrite truthy_bool; cbn [se_ctx x_conv]; destruct cv; [rewrite E; reflexivity|exact E].
      1-3: apply (GO (VMap MDict l)); [constructor|]; intros cfg var e Hc He call fns rho E; cbn [se_simple] in He; injection He as <-; exact E.
      + apply (GO (VSeq KTuple l)); [constructor|]. intros cfg var e Hc He call fns rho E. cbn [se_simple] in He. injection He as <-. exact E.
      + apply (GO (VSeq KList l)); [constructor|]. intros cfg var e Hc He call fns rho E. cbn [se_simple] in He. injection He as <-.
        cbn [eval]. rewrite E. reflexivity.
      + apply (GO (VMap MDict l)); [constructor|]. intros cfg var e Hc He call fns rho E. cbn [se_simple] in He. injection He as <-.
        cbn [eval]. rewrite E. reflexivity.
    - (* enum *)
      assert (HV : exists m x, v = VEnum c m /\ enum_member P c m = Some x) by (inversion HW; subst; eauto).
      destruct HV as [m [x [-> Hm]]]. exists x. split; [now constructor|]. intros cfg var e Hc He.
      rewrite (se_ty_simple P NoSers cfg nm co) in He by exact Hc. cbn [se_simple] in He. injection He as <-.
      apply ev_always. intros j fns rho E. cbn [eval]. cbn [se_ctx x_g].
      rewrite (se_lookup P d (TEnum c)); [|now destruct S as [[S _] _]|reflexivity|reflexivity|apply C; [reflexivity|constructor]].
      cbn [bind]. rewrite E. cbn [bind enum_value enum_unwrap]. rewrite Hm. cbn [of_option bind].
      destruct T as [ed [He [_ [Hs _]]]]. unfold enum_member in Hm. rewrite He in Hm. apply slookup_In in Hm.
      destruct (Hs _ _ Hm) as [S1 _]. now destruct x.
    - (* class *) apply HC; assumption.
    - contradiction.
    - contradiction.
    - (* Literal *) exists v. split; [constructor|]. intros cfg var e Hc He.
      rewrite (se_ty_simple P NoSers cfg nm co) in He by exact Hc. cbn [se_simple] in He. injection He as <-.
      apply ev_always. auto.
    - (* str *)
      assert (HV : exists s, v = VInst k s) by (inversion HW; eauto). destruct HV as [s ->].
      exists (if reuse then VInst k s else VStr s). split; [constructor|]. intros cfg var e Hc He.
      rewrite (se_ty_simple P NoSers cfg nm co) in He by exact Hc. cbn [se_simple] in He. injection He as <-.
      apply ev_always. intros j fns rho E. cbn [eval bind]. rewrite truthy_bool. cbn [se_ctx x_reuse].
      destruct reuse; [exact E|]. rewrite E. reflexivity.
    - (* datetime *)
      assert (HV : exists s, v = VDate k s) by (inversion HW; eauto). destruct HV as [s ->].
      exists (if reuse then VDate k s else VStr s). split; [constructor|]. intros cfg var e Hc He.
      rewrite (se_ty_simple P NoSers cfg nm co) in He by exact Hc. cbn [se_simple] in He. injection He as <-.
      apply ev_always. intros j fns rho E. cbn [eval bind]. rewrite truthy_bool. cbn [se_ctx x_reuse].
      destruct reuse; [exact E|]. rewrite E. reflexivity.
    - contradiction.
    - (* alias *)
      assert (HV : WT v t) by (inversion HW; assumption). destruct T as [T1 T2].
      destruct (IHt d nm co T1) as [x [X1 X2]]; auto.
      { eapply Cov_sub; [exact C|]. constructor; constructor. }
      exists x. split; [now constructor|]. intros cfg var e Hc He.
      rewrite (se_ty_simple P NoSers cfg nm co) in He by exact Hc. cbn [se_simple] in He. eauto.
    - contradiction.
  Qed.
End SeRT.
