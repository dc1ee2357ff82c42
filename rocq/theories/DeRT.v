(** Deserializing accepted data ([Acc]) succeeds and yields the value. *)
From Coq Require Import String List ZArith Bool Ascii Lia.
From Verif Require Import Base PyVal PyType Program Compat Syntax SeRender DeRender Eval Facts Mono Spec Cover Walk SeRT.
Import ListNotations.
Open Scope string_scope.
Open Scope list_scope.

(** * Rendering *)
Section Render.
  Variables (P : program) (W : world).
  Hypothesis NoDes : p_des P = [].

  Definition de_plain (cfg : decfg) (nm co : bool) : Prop :=
    d_named cfg = nm /\ d_legacy cfg = false /\ d_class_de cfg = None /\ (d_suppress cfg = false -> co = true).

  Lemma find_de_none cfg t : d_class_de cfg = None -> find_de P (d_class_de cfg) t = None.
  Proof. intros ->. unfold find_de, class_des. now rewrite NoDes. Qed.

  (** One level of [de_ty] without custom deserializers. *)
  Definition de_core (cfg : decfg) (a : dearg) (t : pytype) : res expr :=
    let rec := de_ty P W cfg in
    let vinner := inner_arg a "v" (EVar "v") in
    let kinner := inner_arg a "k" (EVar "k") in
    match t with
    | TClass c => de_class W cfg a c
    | TUnion l =>
        match opt_arg t with
        | Some x =>
            exists_ <-
              (if da_iter a || da_inner a then dat <- da_data W a t ;; Ok (ENotNone dat)
               else
                 k <- da_key W a ;;
                 match da_alias a with
                 | [] => Ok (ENotNone (EGet (da_var a) k))
                 | al => ks <- mapM lit (k :: al) ;; Ok (ENotNone (EAliases ks false))
                 end) ;;
            e <- rec (opt_inner a) x ;;
            Ok (EIf exists_ e ENone)
        | None => dat <- da_data W a t ;; Ok (EUnionDe (union_func_name P "union_de" l) dat)
        end
    | TList _ x => e <- rec vinner x ;; dat <- da_data W a t ;; Ok (EComp KList e dat)
    | TBare (BList _) => dat <- da_data W a t ;; Ok (EBuiltin BkList dat)
    | TSet k x => e <- rec vinner x ;; dat <- da_data W a t ;; Ok (EComp (set_kind k) e dat)
    | TBare (BSet _) => dat <- da_data W a t ;; Ok (EBuiltin BkSet dat)
    | TDeque x => e <- rec vinner x ;; dat <- da_data W a t ;; Ok (EComp KDeque e dat)
    | TBare BDeque => dat <- da_data W a t ;; Ok (EBuiltin BkDeque dat)
    | TCounter x =>
        e <- rec kinner x ;; dat <- da_data W a t ;;
        Ok (EBuiltin BkCounter (EMapComp e (EVar "v") dat))
    | TBare BCounter => dat <- da_data W a t ;; Ok (EBuiltin BkCounter dat)
    | TDict k kt vt =>
        ek <- (if is_num_key kt then Ok (ECoerce (d_cname cfg) "k" kt (EVar "k"))
               else rec kinner kt) ;;
        ev <- rec vinner vt ;;
        dat <- da_data W a t ;;
        match k with
        | DkDefault => Ok (EDefDict (factory_name P vt) (EMapComp ek ev dat))
        | _ => Ok (EMapComp ek ev dat)
        end
    | TBare (BDict DkDefault) => Raise XIndex
    | TBare (BDict _) => da_data W a t
    | TTuple [] => Raise XSyntax
    | TTuple l =>
        dat <- da_data W a t ;;
        es <- mapMi_from (fun n x => rec (inner_arg a (show (EIdx dat n)) (EIdx dat n)) x) 0 l ;;
        Ok (ETuple es)
    | TVarTuple x =>
        dat <- da_data W a t ;;
        e <- rec (inner_arg a (show (EIdx dat 0)) (EVar "v")) x ;;
        Ok (EComp KTuple e dat)
    | TBare BTuple => dat <- da_data W a t ;; Ok (EBuiltin BkTuple dat)
    | TEnum _ => dat <- prim_data W a t ;; Ok (EDeEnum t dat)
    | TStr _ =>
        dat <- da_data W a t ;;
        Ok (EIf EReuse (EIf (EIsInst dat t) dat (ECtor t dat)) (ECtor t dat))
    | TDate _ =>
        dat <- da_data W a t ;;
        Ok (EIf EReuse (EIf (EIsInst dat t) dat (EFromIso t dat)) (EFromIso t dat))
    | TNone => Ok ENone
    | TAny => da_data W a t
    | TAlias _ x => rec a x
    | TPrim _ | TPrimSub _ _ | TNewType _ _ => de_prim W cfg a t
    | TLit l => dat <- da_data W a t ;; Ok (ELitDe (literal_func_name P l) dat)
    | _ => Raise (XSerde MUnsupported)
    end.

  Lemma de_ty_core cfg nm co a t : de_plain cfg nm co -> da_deser a = None -> da_flatten a = false ->
    (forall c l, t <> TGen c l) -> (forall n, t <> TVar n) ->
    de_ty P W cfg a t = (e <- de_core cfg a t ;; de_default P W a t e).
  Proof.
    intros [_ [_ [HC _]]] HD HF NG NV.
    unfold de_core.
    destruct t;
      lazymatch goal with
      | |- de_ty _ _ _ _ (TUnion _) = _ => idtac | |- de_ty _ _ _ _ (TTuple _) = _ => idtac
      | |- de_ty _ _ _ _ (TGen _ _) = _ => idtac | |- de_ty _ _ _ _ (TVar _) = _ => idtac
      | |- de_ty _ _ _ _ (TSet ?k _) = _ => destruct k; unfold de_ty; fold (de_ty P W); rewrite (find_de_none _ _ HC), HD; reflexivity
      | |- _ => unfold de_ty; fold (de_ty P W); rewrite (find_de_none _ _ HC), HD; reflexivity
      end;
      unfold de_ty; fold (de_ty P W); rewrite ?(find_de_none _ _ HC), ?HD.
    - destruct (is_opt (TUnion l)) eqn:E.
      + destruct (opt_shape l E) as [x [-> Hx]]. rewrite opt_arg_some by exact Hx. rewrite HF. reflexivity.
      + rewrite opt_arg_none by exact E. reflexivity.
    - destruct l as [|x l]; [reflexivity|].
      destruct (da_data W a (TTuple (x :: l))) as [dat| |]; cbn [bind]; try reflexivity.
      assert (E : forall l n, (fix go n l := match l with
                   | [] => Ok []
                   | x :: r =>
                     e <- de_ty P W cfg (inner_arg a (show (EIdx dat n)) (EIdx dat n)) x ;;
                     es <- go (S n) r ;; Ok (e :: es)
                   end) n l = mapMi_from (fun n x => de_ty P W cfg (inner_arg a (show (EIdx dat n)) (EIdx dat n)) x) n l).
      { induction l0; intros; [reflexivity|]. cbn [mapMi_from]. now rewrite IHl0. }
      cbn [mapMi_from]. now rewrite E.
    - now destruct (NG c args).
    - now destruct (NV n).
  Qed.

  (** Options of the field that the generated code for it depends on *)
  Definition arg_ok (d : classdef) (a : dearg) (t : pytype) : Prop :=
    da_deser a = None /\ da_flatten a = false /\
    (da_alias a = [] \/ scalar_ty t = true /\ da_inner a = false /\ da_iter a = false) /\
    (forall p d', da_parent a = Some p -> get_class P p = Some d' -> d' = d) /\
    (da_inner a = true -> da_default a = false) /\
    (da_inner a = false -> da_iter a = false -> exists k, da_key W a = Ok k /\
       (da_alias a = [] \/ k = da_name a /\ forallb lit_ok (da_alias a) = true)).

  Lemma arg_ok_inner d a t t' n v : arg_ok d a t -> da_alias a = [] -> arg_ok d (inner_arg a n v) t'.
  Proof.
    intros (A & B & C & D & E & F) H. unfold arg_ok, inner_arg. cbn. rewrite H.
    repeat split; auto; discriminate.
  Qed.
  Lemma arg_ok_opt d a x : arg_ok d a (TUnion [x; TNone]) -> is_none x = false -> arg_ok d (opt_inner a) x.
  Proof.
    intros (A & B & C & D & E & F) H. unfold arg_ok, opt_inner. cbn.
    repeat split; auto. destruct C as [C|[C1 C2]]; [now left|right]. cbn [scalar_ty] in C1. rewrite H in C1. auto.
  Qed.
  Lemma arg_ok_alias d a n x : arg_ok d a (TAlias n x) -> arg_ok d a x.
  Proof. intros (A & B & C & D & E & F). repeat split; auto. Qed.
  Lemma arg_ok_no_alias d a t : arg_ok d a t -> scalar_ty t = false -> da_alias a = [].
  Proof. intros (A & B & C & _) H. destruct C as [C|[C _]]; congruence. Qed.

  Lemma da_data_total d a t u : arg_ok d a t -> exists e, da_data W a u = Ok e.
  Proof.
    intros (A & B & C & D & E & F). unfold da_data. destruct (da_inner a); [eauto|]. destruct (da_iter a); [eauto|].
    destruct (F eq_refl eq_refl) as [k [-> _]]. cbn [bind]. eauto.
  Qed.
  Lemma key_lit a k : da_key W a = Ok k -> lit_ok k = true.
  Proof. unfold da_key. intros H. inv_bind H. unfold lit in H. destruct (lit_ok a0) eqn:E; congruence. Qed.
  Lemma mapM_lit l : forallb lit_ok l = true -> mapM lit l = Ok l.
  Proof.
    induction l; simpl; intros H; [reflexivity|]. apply andb_prop in H as [H1 H2].
    unfold lit at 1. rewrite H1. cbn [bind]. now rewrite IHl.
  Qed.
  Lemma alias_lits_ok d a t : arg_ok d a t -> da_alias a <> [] -> exists k, da_key W a = Ok k /\ k = da_name a /\
    alias_lits a (da_name a) = Ok (da_name a :: da_alias a) /\ mapM lit (k :: da_alias a) = Ok (k :: da_alias a).
  Proof.
    intros (A & B & C & D & E & F) H. destruct C as [C|[C1 [C2 C3]]]; [congruence|].
    destruct (F C2 C3) as [k [K1 [K2|[K2 K3]]]]; [congruence|]. exists k. repeat split; auto.
    - unfold alias_lits. apply mapM_lit. simpl. rewrite <- K2, (key_lit _ _ K1), K3. reflexivity.
    - apply mapM_lit. simpl. now rewrite (key_lit _ _ K1), K3.
  Qed.
  Lemma prim_data_total d a t : arg_ok d a t -> exists e, prim_data W a t = Ok e.
  Proof.
    intros H. unfold prim_data. destruct (da_alias a) as [|x l] eqn:E; [eapply da_data_total; eauto|].
    destruct (alias_lits_ok d a t H) as [k [_ [_ [-> _]]]]; [congruence|]. cbn [bind]. eauto.
  Qed.
  Lemma de_default_total d a t u e : arg_ok d a t -> exists e', de_default P W a u e = Ok e'.
  Proof.
    intros H. pose proof H as (A & B & C & D & E & F). unfold de_default. rewrite B.
    destruct (da_default a) eqn:Ed, (da_iter a) eqn:Ei; cbn [andb negb]; eauto.
    assert (Hi : da_inner a = false) by (destruct (da_inner a); [discriminate (E eq_refl)|reflexivity]).
    destruct (F Hi eq_refl) as [k [K1 _]]. destruct (da_alias a) as [|x l] eqn:Ea.
    - rewrite K1. cbn [bind]. eauto.
    - destruct (alias_lits_ok d a t H) as [k' [_ [_ [-> _]]]]; [congruence|]. cbn [bind]. eauto.
  Qed.

  Lemma de_ty_total d tg co cfg nm t : de_plain cfg nm co -> tyok P W tg co t -> forall a, arg_ok d a t -> exists e, de_ty P W cfg a t = Ok e.
  Proof.
    intros HP. induction t using pytype_ind'; intros T a HA; try contradiction;
      rewrite (de_ty_core cfg nm co) by first [exact HP | apply HA | discriminate];
      match goal with |- exists e, bind ?m _ = Ok e => assert (G' : exists e0, m = Ok e0); [|destruct G' as [e0 ->]; cbn [bind]; eapply de_default_total; eauto] end;
      unfold de_core; cbn [tyok] in T.
    - unfold de_prim. destruct (prim_data_total d a _ HA) as [e ->]. cbn [bind]. destruct (is_float_class _); eauto.
    - unfold de_prim. destruct (prim_data_total d a _ HA) as [e ->]. cbn [bind]. destruct (is_float_class _); eauto.
    - unfold de_prim. destruct (prim_data_total d a _ HA) as [e ->]. cbn [bind]. destruct (is_float_class _); eauto.
    - eauto.
    - eapply da_data_total; eauto.
    - destruct (is_opt (TUnion l)) eqn:E.
      + destruct (opt_shape l E) as [x [-> Hx]]. rewrite opt_arg_some by exact Hx. rewrite Hx in T.
        inversion H; subst. destruct (H2 T (opt_inner a) (arg_ok_opt _ _ _ HA Hx)) as [e1 He1].
        pose proof HA as (A & B & C & D & E1 & F).
        destruct (da_iter a || da_inner a) eqn:Ei.
        * destruct (da_data_total d a _ (TUnion [x; TNone]) HA) as [e ->]. cbn [bind]. rewrite He1. cbn [bind]. eauto.
        * apply orb_false_iff in Ei as [I1 I2]. destruct (F I2 I1) as [k [K1 _]]. rewrite K1. cbn [bind].
          destruct (da_alias a) as [|y l'] eqn:Ea.
          -- cbn [bind]. rewrite He1. cbn [bind]. eauto.
          -- destruct (alias_lits_ok d a _ HA) as [k' [L1 [_ [_ L2]]]]; [congruence|]. rewrite K1 in L1. injection L1 as <-.
             rewrite Ea in L2. rewrite L2. cbn [bind]. rewrite He1. cbn [bind]. eauto.
      + rewrite opt_arg_none by exact E. destruct (da_data_total d a _ (TUnion l) HA) as [e ->]. cbn [bind]. eauto.
    - pose proof (arg_ok_no_alias _ _ _ HA eq_refl) as NA. destruct (IHt T _ (arg_ok_inner d a _ t "v" (EVar "v") HA NA)) as [e1 ->].
      destruct (da_data_total d a _ (TList k t) HA) as [e ->]. cbn [bind]. eauto.
    - pose proof (arg_ok_no_alias _ _ _ HA eq_refl) as NA. destruct (IHt (proj2 T) _ (arg_ok_inner d a _ t "v" (EVar "v") HA NA)) as [e1 ->].
      destruct (da_data_total d a _ (TSet k t) HA) as [e ->]. cbn [bind]. eauto.
    - pose proof (arg_ok_no_alias _ _ _ HA eq_refl) as NA. destruct (IHt T _ (arg_ok_inner d a _ t "v" (EVar "v") HA NA)) as [e1 ->].
      destruct (da_data_total d a _ (TDeque t) HA) as [e ->]. cbn [bind]. eauto.
    - pose proof (arg_ok_no_alias _ _ _ HA eq_refl) as NA. destruct (IHt (proj2 T) _ (arg_ok_inner d a _ t "k" (EVar "k") HA NA)) as [e1 ->].
      destruct (da_data_total d a _ (TCounter t) HA) as [e ->]. cbn [bind]. eauto.
    - pose proof (arg_ok_no_alias _ _ _ HA eq_refl) as NA. destruct T as [T1 [T2 [T3 T4]]].
      destruct (IHt1 T2 _ (arg_ok_inner d a _ t1 "k" (EVar "k") HA NA)) as [e1 E1].
      destruct (IHt2 T3 _ (arg_ok_inner d a _ t2 "v" (EVar "v") HA NA)) as [e2 E2].
      destruct (da_data_total d a _ (TDict k t1 t2) HA) as [e He]. rewrite E1, E2, He.
      destruct (is_num_key t1), k; cbn [bind]; eauto.
    - pose proof (arg_ok_no_alias _ _ _ HA eq_refl) as NA. destruct (tyok_tuple P W _ _ _ T) as [T1 T2].
      destruct l as [|x l]; [congruence|]. destruct (da_data_total d a _ (TTuple (x :: l)) HA) as [dat ->]. cbn [bind].
      destruct (mapMi_total (fun n x => de_ty P W cfg (inner_arg a (show (EIdx dat n)) (EIdx dat n)) x) (x :: l)) with (n := 0) as [es ->].
      { intros n b Hb. rewrite Forall_forall in H, T2. apply H; auto. eapply arg_ok_inner; eauto. }
      cbn [bind]. eauto.
    - pose proof (arg_ok_no_alias _ _ _ HA eq_refl) as NA. destruct (da_data_total d a _ (TVarTuple t) HA) as [dat ->]. cbn [bind].
      destruct (IHt T _ (arg_ok_inner d a _ t (show (EIdx dat 0)) (EVar "v") HA NA)) as [e1 ->]. cbn [bind]. eauto.
    - destruct (da_data_total d a _ (TBare b) HA) as [e He].
      destruct b as [k|k|[]| | |]; try (now destruct T); rewrite He; cbn [bind]; eauto.
    - destruct (prim_data_total d a _ HA) as [e ->]. cbn [bind]. eauto.
    - unfold de_class. destruct HA as (A & B & C & D & E1 & F). rewrite B.
      destruct (da_data_total d a _ (TClass c) (conj A (conj B (conj C (conj D (conj E1 F)))))) as [e ->]. cbn [bind]. eauto.
    - destruct (da_data_total d a _ (TLit l) HA) as [e ->]. cbn [bind]. eauto.
    - destruct (da_data_total d a _ (TStr k) HA) as [e ->]. cbn [bind]. eauto.
    - destruct (da_data_total d a _ (TDate k) HA) as [e ->]. cbn [bind]. eauto.
    - apply (IHt (proj1 T)). eapply arg_ok_alias; eauto.
  Qed.
End Render.

(** * Inverting accepted data, type by type *)
Section AccInv.
  Variables (P : program) (W : world) (reuse hook : bool).
  Notation ACC := (Acc P W reuse hook).
  Notation FACC := (FAcc P W reuse hook).
  Variables (nm : bool) (tg : tagging).

  Lemma acc_prim v p x : ACC nm tg v (TPrim p) x -> prim_val p v = true /\ x = v.
  Proof. intros H; inversion H; subst; auto. Qed.
  Lemma acc_sub v n p x : ACC nm tg v (TPrimSub n p) x ->
    exists u, v = VSub n u /\ prim_val p u = true /\ (x = u \/ x = VSub n u) /\ (hook = true -> p <> PFloat).
  Proof. intros H; inversion H; subst; eauto 8. Qed.
  Lemma acc_new v n p x : ACC nm tg v (TNewType n p) x -> prim_val p v = true /\ x = v.
  Proof. intros H; inversion H; subst; auto. Qed.
  Lemma acc_opt v a x : ACC nm tg v (TUnion [a; TNone]) x -> is_none a = false ->
    v = VNone /\ x = VNone \/ x <> VNone /\ ACC nm tg v a x.
  Proof.
    intros H E. inversion H; subst; auto; exfalso;
      match goal with O : is_opt _ = false |- _ => cbn [is_opt] in O; rewrite E in O; discriminate O end.
  Qed.
  Lemma acc_list v k a x : ACC nm tg v (TList k a) x ->
    exists l s l', v = VSeq KList l /\ x = VSeq s l' /\ Forall2 (fun x y => ACC nm tg x a y) l l'.
  Proof. intros H; inversion H; subst; eauto 8. Qed.
  Lemma acc_set v k a x : ACC nm tg v (TSet k a) x ->
    exists l s l', v = VSeq (set_kind k) l /\ x = VSeq s l' /\ Forall2 (fun x y => ACC nm tg x a y) l l' /\
      distinct P l /\ forallb (hashable P) l = true.
  Proof. intros H; inversion H; subst; eauto 10. Qed.
  Lemma acc_deque v a x : ACC nm tg v (TDeque a) x ->
    exists l s l', v = VSeq KDeque l /\ x = VSeq s l' /\ Forall2 (fun x y => ACC nm tg x a y) l l'.
  Proof. intros H; inversion H; subst; eauto 8. Qed.
  Lemma acc_vartuple v a x : ACC nm tg v (TVarTuple a) x ->
    exists l s l', v = VSeq KTuple l /\ x = VSeq s l' /\ Forall2 (fun x y => ACC nm tg x a y) l l'.
  Proof. intros H; inversion H; subst; eauto 8. Qed.
  Lemma acc_tuple v ts x : ACC nm tg v (TTuple ts) x ->
    exists l s l', v = VSeq KTuple l /\ x = VSeq s l' /\ (s = KList \/ s = KTuple) /\
      Forall3 (fun t x y => ACC nm tg x t y) ts l l'.
  Proof. intros H; inversion H; subst; eauto 10. Qed.
  Lemma acc_counter v a x : ACC nm tg v (TCounter a) x ->
    exists l m l', v = VMap MCounter l /\ x = VMap m l' /\
      Forall2 (fun kv kv' => ACC nm tg (fst kv) a (fst kv') /\ snd kv' = snd kv) l l' /\
      distinct P (map fst l) /\ forallb (hashable P) (map fst l) = true.
  Proof. intros H; inversion H; subst; eauto 12. Qed.
  Lemma acc_dict v k a b x : ACC nm tg v (TDict k a b) x ->
    exists m l m' l', v = VMap m l /\ x = VMap m' l' /\ dict_kind k b m /\
      Forall2 (fun kv kv' =>
          (ACC nm tg (fst kv) a (fst kv') \/
           a = TPrim PInt /\ exists z s, fst kv = VInt z /\ fst kv' = VStr s /\ w_int_of_str W s = Some z) /\
          ACC nm tg (snd kv) b (snd kv')) l l' /\
      distinct P (map fst l) /\ forallb (hashable P) (map fst l) = true.
  Proof. intros H; inversion H; subst; eauto 12. Qed.
  Lemma acc_lit v l x : ACC nm tg v (TLit l) x -> exists y, In y l /\ v = lit_val y /\ x = v.
  Proof. intros H; inversion H; subst; eauto. Qed.
  Lemma acc_alias v n a x : ACC nm tg v (TAlias n a) x -> ACC nm tg v a x.
  Proof. intros H; inversion H; subst; auto. Qed.
  Lemma acc_class v c x : ACC nm tg v (TClass c) x -> exists attrs, v = VObj c attrs.
  Proof. intros H; inversion H; subst; eauto. Qed.
  Lemma acc_none v x : ACC nm tg v TNone x -> v = VNone /\ x = VNone.
  Proof. intros H; inversion H; subst; auto. Qed.
  Lemma acc_any v x : ACC nm tg v TAny x -> v = x.
  Proof. intros H; inversion H; subst; auto. Qed.

End AccInv.

Lemma issub_refl P c : issub P c c = true.
Proof. unfold issub. now rewrite String.eqb_refl. Qed.
Lemma prim_val_inst P p v : prim_val p v = true -> isinst_prim P v p = true.
Proof. destruct p, v; try discriminate; reflexivity. Qed.
Lemma lit_eqv_refl P y : lit_arg_ok y = true -> eqv P (lit_val y) (lit_val y) = true.
Proof.
  destruct y; simpl; try discriminate; intros _; unfold eqv; simpl; auto.
  - apply Z.eqb_refl. - apply String.eqb_refl. - destruct b; reflexivity.
Qed.

(** Accepted values pass the run time type check. *)
Theorem acc_bear P W reuse hook : forall n v, vsize v <= n -> forall t nm tg co x,
  tyok P W tg co t -> Acc P W reuse hook nm tg v t x -> bear P W v t = true.
Proof.
  induction n; intros v Hn; [destruct v; simpl in Hn; lia|].
  assert (IH : forall u, vsize u < vsize v -> forall t nm tg co x,
     tyok P W tg co t -> Acc P W reuse hook nm tg u t x -> bear P W u t = true) by (intros; eapply IHn; eauto; lia).
  assert (IHl : forall k l a nm tg co l', v = VSeq k l -> tyok P W tg co a -> Forall2 (fun x y => Acc P W reuse hook nm tg x a y) l l' ->
            match picked W v l with Some x => bear P W x a | None => true end = true).
  { intros k l a nm tg co l' -> T F. unfold picked. destruct (w_pick W (VSeq k l)); [|reflexivity].
    destruct (nth_opt l n0) eqn:E; [|reflexivity]. destruct (Forall2_nth _ _ _ _ _ F E) as [y [_ Hy]].
    apply nth_opt_In in E. eapply IH; eauto. now apply vsize_seq. }
  clear IHn. induction t using pytype_ind'; intros nm tg co x T H1; cbn [tyok] in T; try contradiction; cbn [bear].
  - apply acc_prim in H1 as [H1 _]. now apply prim_val_inst.
  - apply acc_sub in H1 as [u [-> _]]. simpl. apply issub_refl.
  - apply acc_new in H1 as [H1 _]. now apply prim_val_inst.
  - apply acc_none in H1 as [-> _]. reflexivity.
  - reflexivity.
  - rewrite existsb_exists. destruct (is_opt (TUnion l)) eqn:O.
    + destruct (opt_shape l O) as [a [-> Ha]]. rewrite Ha in T. destruct (acc_opt _ _ _ _ _ _ _ _ _ H1 Ha) as [[-> _]|[_ HA]].
      * exists TNone. split; [right; now left|reflexivity].
      * exists a. split; [now left|]. rewrite Forall_forall in H. eapply (H a (or_introl eq_refl)); eauto.
    + inversion H1; subst; try (cbn [is_opt] in O; match goal with E : is_none _ = false |- _ => rewrite E in O; discriminate O end).
      * exists (TPrim p). split; auto. cbn [bear]. now apply prim_val_inst.
      * exists TNone. split; auto.
      * exists t. split; auto.
        match goal with U : In t l, B : bulk t = true, A : Acc _ _ _ _ true _ _ _ _ |- _ =>
          rename U into HIn; rename B into HB; rename A into HAcc end.
        rewrite Forall_forall in H. eapply (H t HIn true tg false); [|exact HAcc].
        assert (U : union_ok P W tg l) by (apply (tyok_union P W tg co l); auto). destruct U as [U _]. rewrite Forall_forall in U.
        destruct (arm_cases P t (U t HIn)) as [[p ->]|[->|[[c [-> _]]|[_ [KT _]]]]]; try discriminate HB. now apply carrier_tyok.
      * exists (TClass c). split; auto. match goal with A : Acc _ _ _ _ _ _ _ (TClass c) _ |- _ => apply acc_class in A as [attrs ->] end.
        cbn [bear named_inst]. unfold obj_isa. now rewrite String.eqb_refl.
      * exists (TClass c). split; auto. match goal with A : Acc _ _ _ _ _ _ _ (TClass c) _ |- _ => apply acc_class in A as [attrs ->] end.
        cbn [bear named_inst]. unfold obj_isa. now rewrite String.eqb_refl.
      * exists (TClass c). split; auto. match goal with A : Acc _ _ _ _ _ _ _ (TClass c) _ |- _ => apply acc_class in A as [attrs ->] end.
        cbn [bear named_inst]. unfold obj_isa. now rewrite String.eqb_refl.
  - apply acc_list in H1 as [l [s [l' [-> [-> F]]]]]. erewrite IHl; eauto. destruct k; reflexivity.
  - apply acc_set in H1 as [l [s [l' [-> [-> [F _]]]]]]. erewrite IHl; [|reflexivity| |exact F]; [destruct k; reflexivity|apply T].
  - apply acc_deque in H1 as [l [s [l' [-> [-> F]]]]]. erewrite IHl; eauto.
  - apply acc_counter in H1 as [l [m [l' [-> [-> [F _]]]]]]. unfold picked. destruct (w_pick W _); [|reflexivity].
    destruct (nth_opt l n0) as [[a b]|] eqn:E; [|reflexivity]. destruct (Forall2_nth _ _ _ _ _ F E) as [y [_ [Hy _]]].
    apply nth_opt_In in E. eapply (IH a); [apply (vsize_map MCounter l (a, b) E)|apply T|exact Hy].
  - apply acc_dict in H1 as [m [l [m' [l' [-> [-> [D [F _]]]]]]]]. destruct T as [T1 [T2 [T3 T4]]].
    assert (E0 : dict_inst k m = true). { destruct k; cbn [dict_kind] in D; subst; try reflexivity. destruct (factory_of t2); [subst; reflexivity|contradiction]. }
    rewrite E0. cbn [andb]. unfold picked. destruct (w_pick W _); [|reflexivity].
    destruct (nth_opt l n0) as [[a b]|] eqn:E; [|reflexivity]. destruct (Forall2_nth _ _ _ _ _ F E) as [y [_ [Hy Hz]]].
    apply nth_opt_In in E. cbn [fst snd] in *. rewrite (IH b) with (t := t2) (nm := nm) (tg := tg) (co := co) (x := snd y); auto; [|apply (vsize_map m l (a, b) E)].
    rewrite andb_true_r. destruct Hy as [Hy|[-> [z [s [-> _]]]]]; [|reflexivity].
    eapply IH; eauto. apply (vsize_map m l (a, b) E).
  - apply acc_tuple in H1 as [vs [s [l' [-> [-> [_ F]]]]]].
    assert (IH' : forall u, In u vs -> forall t nm tg co x, tyok P W tg co t -> Acc P W reuse hook nm tg u t x -> bear P W u t = true)
      by (intros; eapply IH; eauto; now apply vsize_seq).
    destruct (tyok_tuple P W tg co l T) as [_ TT].
    clear -F IH' TT. induction F; [reflexivity|]. inversion TT; subst. apply andb_true_intro. split.
    + eapply IH'; eauto. now left.
    + apply IHF; auto. intros; eapply IH'; eauto. now right.
  - apply acc_vartuple in H1 as [l [s [l' [-> [-> F]]]]]. erewrite IHl; eauto.
  - inversion H1; subst; try reflexivity; match goal with k : _ |- _ => destruct k; try reflexivity; congruence end.
  - inversion H1; subst; cbn [named_inst]; apply String.eqb_refl.
  - apply acc_class in H1 as [attrs ->]. cbn [named_inst]. unfold obj_isa. now rewrite String.eqb_refl.
  - apply acc_lit in H1 as [y [Hy [-> _]]]. apply existsb_exists. exists y. split; auto.
    rewrite forallb_forall in T. rewrite (lit_eqv_refl P y (T y Hy)). destruct y; try reflexivity. discriminate (T _ Hy).
  - inversion H1; subst; cbn [named_inst]; apply issub_refl.
  - inversion H1; subst; cbn [named_inst]; apply issub_refl.
  - apply acc_alias in H1. eapply IHt; eauto. apply T.
Qed.

(** * Evaluation *)
Section DeRT.
  Variables (P : program) (W : world) (K : list (tagging * pytype)).
  Hypothesis NoDes : p_des P = [].
  Variables (reuse : bool) (dn : option numhook).
  Hypothesis HookFloat : forall h, dn = Some h -> forall f, h (VFloat f) = Ok (VFloat f).
  Notation hook := (has_some dn).
  Notation ACC := (Acc P W reuse hook).
  Notation FACC := (FAcc P W reuse hook).
  Notation run := (run P W K).
  Notation es := (enum_scalar P).
  Notation ctxof d := (de_ctx P d reuse dn).

  (** The data [x] is what the field described by [a] finds. *)
  Definition present (call : callreq -> res pyval) (cx : ctx) (rho : env) (a : dearg) (x : pyval) : Prop :=
    if da_inner a then da_alias a = [] /\ eval P W call cx rho (da_var a) = Ok x
    else if da_iter a then da_alias a = [] /\ eval P W call cx rho (EIdx (da_var a) (da_index a)) = Ok x
    else exists m kvs k, eval P W call cx rho (da_var a) = Ok (VMap m kvs) /\ da_key W a = Ok k /\
      (da_alias a = [] /\ skey P kvs k = Some x \/
       k = da_name a /\ slookup "data" rho = Some (VMap m kvs) /\ first_key P kvs (k :: da_alias a) = Some x).

  Lemma py_in_map k m kvs : py_in P k (VMap m kvs) = Ok (has_some (skey P kvs k)).
  Proof. unfold py_in, dmem, skey. destruct (dget _ _ _); reflexivity. Qed.
  Lemma getitem_map m kvs k x : skey P kvs k = Some x -> getitem P (VMap m kvs) k = Ok x.
  Proof. unfold skey. simpl. now intros ->. Qed.
  Lemma get_aliases_map m kvs r ks : get_by_aliases P (VMap m kvs) ks r =
    match first_key P kvs ks with Some x => Ok x | None => if r then Raise XKey else Ok VNone end.
  Proof.
    induction ks as [|k ks IH]; [reflexivity|]. cbn [get_by_aliases first_key]. rewrite py_in_map. cbn [bind].
    destruct (skey P kvs k) eqn:E; cbn [has_some]; [now apply getitem_map|exact IH].
  Qed.
  Lemma exists_aliases_map m kvs ks : exists_by_aliases P (VMap m kvs) ks = Ok (has_some (first_key P kvs ks)).
  Proof.
    induction ks as [|k ks IH]; [reflexivity|]. cbn [exists_by_aliases first_key]. rewrite py_in_map. cbn [bind].
    destruct (skey P kvs k) eqn:E; cbn [has_some]; [reflexivity|exact IH].
  Qed.

  Section Call.
    Variables (call : callreq -> res pyval) (cx : ctx) (rho : env).
    Notation EV := (eval P W call cx rho).

    Lemma data_eval a t x dat : present call cx rho a x -> da_alias a = [] -> da_data W a t = Ok dat -> EV dat = Ok x.
    Proof.
      unfold present, da_data. intros H NA D.
      destruct (da_inner a); [destruct H as [_ H]; congruence|].
      destruct (da_iter a); [destruct H as [_ H]; congruence|].
      destruct H as [m [kvs [k [H1 [H2 H3]]]]]. rewrite H2 in D. cbn [bind] in D.
      assert (S : skey P kvs k = Some x).
      { destruct H3 as [[_ H3]|[_ [_ H3]]]; [assumption|]. rewrite NA in H3. cbn [first_key] in H3.
        destruct (skey P kvs k); congruence. }
      destruct (has_none_arg t); injection D as <-; cbn [eval]; rewrite H1; cbn [bind].
      - unfold getopt. unfold skey in S. now rewrite S.
      - now apply getitem_map.
    Qed.

    Lemma prim_data_eval d a t x dat : arg_ok P W d a t -> present call cx rho a x -> prim_data W a t = Ok dat -> EV dat = Ok x.
    Proof.
      intros HA H D. unfold prim_data in D. destruct (da_alias a) as [|y l] eqn:Ea; [eapply data_eval; eauto|].
      destruct (alias_lits_ok P W d a t HA) as [k [K1 [K2 [K3 K4]]]]; [congruence|]. rewrite K3 in D. cbn [bind] in D.
      injection D as <-. unfold present in H. destruct HA as (_ & _ & [HA|[_ [I1 I2]]] & _); [congruence|].
      rewrite I1, I2 in H. destruct H as [m [kvs [k' [H1 [H2 H3]]]]]. rewrite K1 in H2. injection H2 as <-.
      cbn [eval]. destruct H3 as [[H3 _]|[_ [H4 H5]]]; [congruence|]. rewrite H4. cbn [of_option bind].
      rewrite get_aliases_map, <- K2. now rewrite H5.
    Qed.

    Lemma default_present d a t u x e e' : arg_ok P W d a t -> present call cx rho a x -> de_default P W a u e = Ok e' -> EV e' = EV e.
    Proof.
      intros HA H D. pose proof HA as (_ & HF & _ & _ & HI & _). unfold de_default in D. rewrite HF in D.
      destruct (da_default a) eqn:Ed; [|cbn [andb] in D; congruence].
      assert (I1 : da_inner a = false) by (destruct (da_inner a); [discriminate (HI eq_refl)|reflexivity]).
      destruct (da_iter a) eqn:I2; [cbn [andb negb] in D; congruence|]. cbn [andb negb] in D.
      unfold present in H. rewrite I1, I2 in H. destruct H as [m [kvs [k [H1 [H2 H3]]]]].
      destruct (da_alias a) as [|y l] eqn:Ea.
      - rewrite H2 in D. cbn [bind] in D. injection D as <-. cbn [eval]. rewrite H1. cbn [bind]. rewrite py_in_map. cbn [bind].
        assert (S : skey P kvs k = Some x).
        { destruct H3 as [[_ H3]|[_ [_ H3]]]; [assumption|]. cbn [first_key] in H3. destruct (skey P kvs k); congruence. }
        rewrite S. reflexivity.
      - destruct (alias_lits_ok P W d a t HA) as [k' [K1 [K2 [K3 K4]]]]; [congruence|]. rewrite K3 in D. cbn [bind] in D.
        injection D as <-. cbn [eval]. rewrite H1. cbn [bind]. rewrite exists_aliases_map. cbn [bind].
        destruct H3 as [[H3 _]|[H3 [_ H5]]]; [congruence|]. rewrite <- H3, Ea, H5. reflexivity.
    Qed.

    Lemma opt_exists d a t u x ex : arg_ok P W d a t -> present call cx rho a x ->
      (if da_iter a || da_inner a then dat <- da_data W a u ;; Ok (ENotNone dat)
       else
         k <- da_key W a ;;
         match da_alias a with
         | [] => Ok (ENotNone (EGet (da_var a) k))
         | al => ks <- mapM lit (k :: al) ;; Ok (ENotNone (EAliases ks false))
         end) = Ok ex -> EV ex = Ok (VBool match x with VNone => false | _ => true end).
    Proof.
      intros HA H D. destruct (da_iter a || da_inner a) eqn:I.
      - inv_bind D. injection D as <-. cbn [eval]. rewrite (data_eval a u x a0); auto.
        unfold present in H. destruct (da_inner a); [apply H|]. destruct (da_iter a); [apply H|discriminate].
      - apply orb_false_iff in I as [I1 I2]. unfold present in H. rewrite I1, I2 in H.
        destruct H as [m [kvs [k [H1 [H2 H3]]]]]. rewrite H2 in D. cbn [bind] in D.
        destruct (da_alias a) as [|y l] eqn:Ea.
        + injection D as <-. cbn [eval]. rewrite H1. cbn [bind getopt].
          assert (S : skey P kvs k = Some x).
          { destruct H3 as [[_ H3]|[_ [_ H3]]]; [assumption|]. cbn [first_key] in H3. destruct (skey P kvs k); congruence. }
          unfold skey in S. now rewrite S.
        + destruct (alias_lits_ok P W d a t HA) as [k' [K1 [K2 [K3 K4]]]]; [congruence|]. rewrite H2 in K1. injection K1 as <-.
          rewrite Ea in K4. rewrite K4 in D. cbn [bind] in D. injection D as <-. cbn [eval].
          destruct H3 as [[H3 _]|[_ [H4 H5]]]; [congruence|]. rewrite H4. cbn [of_option bind]. rewrite get_aliases_map, H5. reflexivity.
    Qed.

    Lemma present_opt a x : present call cx rho a x -> present call cx rho (opt_inner a) x.
    Proof. exact (fun H => H). Qed.
    Lemma present_inner a n e x : da_alias a = [] -> EV e = Ok x -> present call cx rho (inner_arg a n e) x.
    Proof. intros H E. unfold present, inner_arg. cbn. auto. Qed.
  End Call.

  (** ** Enums *)
  Lemma enum_call_val c m x : enum_wf P c -> enum_member P c m = Some x -> enum_call P c x = Ok (VEnum c m).
  Proof.
    intros [e [He [ND [Hs Hd]]]] Hm. unfold enum_member in Hm. rewrite He in Hm. apply slookup_In in Hm.
    unfold enum_call. rewrite He. destruct (e_members e) as [|m0 ms] eqn:Em; [contradiction|].
    destruct (Hs _ _ Hm) as [S1 S2].
    replace (match x with VEnum c' m1 => String.eqb c' c && match slookup m1 (m0 :: ms) with Some _ => true | None => false end | _ => false end)
      with false by (destruct x; try discriminate S1; reflexivity).
    destruct (find (fun nv => eqv P (snd nv) x) (m0 :: ms)) as [[m' x']|] eqn:Ef.
    - apply find_some in Ef as [F1 F2]. cbn [snd] in F2. now rewrite (Hd _ _ _ _ F1 Hm F2).
    - pose proof (find_none _ _ Ef _ Hm) as F. cbn [snd] in F. congruence.
  Qed.

  Lemma de_enum_acc nm tg c v x : enum_wf P c -> ACC nm tg v (TEnum c) x -> deserialize_enum P W c x = Ok v.
  Proof.
    intros E H. inversion H; subst.
    - unfold deserialize_enum. rewrite (enum_call_val c m x E) by assumption. reflexivity.
    - unfold deserialize_enum.
      match goal with G : get_enum P c = Some ?e, A : forall m' x, In (m', x) (e_members ?e) -> _, M : enum_member P c m = Some (VInt z) |- _ =>
        rename G into G0; rename A into A0; rename M into M0 end.
      pose proof M0 as M1. unfold enum_member in M1. rewrite G0 in M1. apply slookup_In in M1.
      assert (C1 : enum_call P c (VStr s) = Raise XValue).
      { unfold enum_call. rewrite G0. destruct (e_members e) as [|m0 ms] eqn:Em; [contradiction|].
        destruct (find (fun nv => eqv P (snd nv) (VStr s)) (m0 :: ms)) as [[m' x']|] eqn:Ef; [|reflexivity].
        apply find_some in Ef as [F1 F2]. destruct (A0 _ _ F1) as [z' ->]. discriminate F2. }
      rewrite C1, G0. destruct (e_members e) as [|[m0 x0] ms] eqn:Em; [contradiction|].
      destruct (A0 m0 x0 (or_introl eq_refl)) as [z' ->]. cbn.
      match goal with Q : w_int_of_str W s = Some z |- _ => rewrite Q end. cbn [of_option bind].
      now apply enum_call_val.
  Qed.

  (** ** Primitives *)
  Lemma sub_ctor n p u x : prim_val p u = true -> x = u \/ x = VSub n u -> p <> PBool -> call_ctor P W (TPrimSub n p) x = Ok (VSub n u).
  Proof.
    intros H [->| ->] B; destruct p, u; try discriminate; try congruence; reflexivity.
  Qed.
  Lemma coerce_sub cls fld n p u x : prim_val p u = true -> x = u \/ x = VSub n u -> p <> PBool ->
    coerce_object P W cls fld (TPrimSub n p) x = Ok (VSub n u).
  Proof.
    intros H X B. unfold coerce_object. rewrite (sub_ctor n p u x H X B).
    destruct X as [->| ->]; [|reflexivity]. pose proof (prim_val_not_none _ _ H). destruct u; congruence || reflexivity.
  Qed.

  (** ** Unions *)
  Definition fake : expr := EKey (EVar "fake_dict") "fake_key".

  Lemma union_arg_ok d t : arg_ok P W d union_de_arg t.
  Proof.
    unfold arg_ok. cbn. repeat split; auto; try discriminate. intros _ _. exists "fake_key". split; [reflexivity|now left].
  Qed.
  Lemma union_cfg_plain_de d : de_plain (union_de_cfg d) true false.
  Proof. repeat split. discriminate. Qed.

  Definition arm_expr (t : pytype) : expr :=
    match t with
    | TPrim PFloat => EIf EHasNum (ENum fake) fake
    | TPrim _ => fake
    | TClass c => EDeFn (DtName (TClass c)) fake true None
    | _ => ENone
    end.
  Lemma arm_de d t : union_arm P t -> bulk t = false -> de_ty P W (union_de_cfg d) union_de_arg t = Ok (arm_expr t).
  Proof.
    intros U B. rewrite (de_ty_core P W NoDes (union_de_cfg d) true false).
    - destruct (arm_cases P t U) as [[p ->]|[->|[[c [-> _]]|[B' _]]]]; [destruct p| | |congruence]; reflexivity.
    - apply union_cfg_plain_de.
    - reflexivity.
    - reflexivity.
    - intros c l ->. destruct U as [U _]. discriminate U.
    - intros n ->. destruct U as [U _]. discriminate U.
  Qed.
  Lemma render_de_arms d tg l : union_ok P W tg l -> exists arms, render_union_de P W d l = Ok arms /\
    Forall2 (fun t a => fst a = t /\ de_ty P W (union_de_cfg d) union_de_arg t = Ok (snd a)) l arms.
  Proof.
    intros [U _]. unfold render_union_de.
    destruct (mapM_total (fun t => e <- de_ty P W (union_de_cfg d) union_de_arg t ;;
      if arm_lits_ok t && lit_ok (typename P t) then Ok (t, e) else Raise XSyntax) l) as [arms M].
    { intros t Ht. rewrite Forall_forall in U. specialize (U t Ht).
      destruct (de_ty_total P W NoDes d tg false (union_de_cfg d) true t (union_cfg_plain_de d)) with (a := union_de_arg) as [e He].
      - destruct (arm_cases P t U) as [[p ->]|[->|[[c [-> _]]|[_ [KT _]]]]]; try exact I. now apply carrier_tyok.
      - apply union_arg_ok.
      - rewrite He. cbn [bind].
        assert (E : arm_lits_ok t && lit_ok (typename P t) = true).
        { destruct (arm_cases P t U) as [[p ->]|[->|[[c [-> L]]|[B [_ L]]]]]; try reflexivity; [now destruct p|exact L|].
          rewrite L. destruct t; try discriminate B; reflexivity. }
        rewrite E. eauto. }
    exists arms. split; [exact M|]. apply mapM_Ok in M. eapply Forall2_impl; [|exact M].
    intros t a _ _ E. cbv beta in E. inv_bind E. destruct (_ && _); [|discriminate]. injection E as <-. auto.
  Qed.

  (** The first member that does not fail *)
  Lemma run_union_de_ok call cx data v l1 t l2 arms (R : pytype -> pytype * expr -> Prop) :
    Forall2 R (l1 ++ t :: l2) arms ->
    (forall u a, In u l1 -> R u a -> (exists e, run_arm P W call cx (fst a) (snd a) data = Raise e) \/ run_arm P W call cx (fst a) (snd a) data = Ok v) ->
    (forall a, R t a -> run_arm P W call cx (fst a) (snd a) data = Ok v) ->
    run_union_de P W call cx arms data = Ok v.
  Proof.
    revert arms. induction l1 as [|u l1 IH]; intros arms F H1 H2; inversion F; subst.
    - match goal with H : R t ?y |- _ => destruct y as [t' e]; specialize (H2 _ H) end. cbn [fst snd run_union_de] in *. rewrite H2. reflexivity.
    - match goal with H : R u ?y |- _ => destruct y as [t' e]; destruct (H1 u _ (or_introl eq_refl) H) as [[ex E]|E] end;
        cbn [fst snd run_union_de] in *; rewrite E; cbn [catch]; [|reflexivity].
      apply IH; auto. intros; eapply H1; eauto. now right.
  Qed.

  Lemma fake_eval call cx x r : eval P W call cx (("fake_dict", VMap MDict [(VStr "fake_key", x)]) :: r) fake = Ok x.
  Proof. reflexivity. Qed.

  (** Plain data and sequences never pass for a class ... *)
  Definition flat_val (x : pyval) : bool := scalar_val x || match x with VSeq _ _ => true | _ => false end.
  Lemma scalar_not_class call cx x c e : flat_val x = true -> c_tagging (x_cls cx) <> Untagged ->
    exists ex, run_arm P W call cx (TClass c) e x = Raise ex.
  Proof.
    intros S U. unfold run_arm.
    assert (A : exists ex, arm_data P cx (TClass c) x = Raise ex).
    { unfold arm_data. cbn [taggable].
      assert (B : forall k, (exists b, py_in P k x = Ok b) \/ py_in P k x = Raise XType).
      { intros k. unfold py_in. destruct x; try discriminate S; simpl; eauto. }
      assert (G : forall k, getitem P x k = Raise XType) by (intros; destruct x; try discriminate S; reflexivity).
      destruct (c_tagging (x_cls cx)) as [|tag|tag content|]; try congruence.
      - destruct (B (typename P (TClass c))) as [[b ->]| ->]; cbn [bind]; [|eauto].
        unfold ensure. destruct b; cbn [bind]; [rewrite G|]; eauto.
      - destruct (B tag) as [[b ->]| ->]; cbn [bind]; [|eauto].
        unfold ensure. destruct b; cbn [bind]; [rewrite G|]; cbn [bind]; eauto.
      - destruct (B tag) as [[b ->]| ->]; cbn [bind]; [|eauto].
        unfold ensure. destruct b; cbn [bind]; [|eauto]. destruct (B content) as [[b ->]| ->]; cbn [bind]; [|eauto].
        destruct b; cbn [bind]; [rewrite G|]; cbn [bind]; eauto. }
    destruct A as [ex ->]. cbn [bind]. eauto.
  Qed.
  (** ... and a mapping or a sequence never for a primitive. *)
  Lemma map_not_prim call cx x t e : (exists p, t = TPrim p) \/ t = TNone -> (exists s l, x = VSeq s l) \/ (exists m l, x = VMap m l) ->
    exists ex, run_arm P W call cx t e x = Raise ex.
  Proof. intros [[p ->]| ->] [[s [l ->]]|[m [l ->]]]; unfold run_arm; cbn; eauto. Qed.

  (** ** Containers as members *)
  Lemma resolve_carrier d t : carrier P t -> Cov P d t -> scope_ok P d ->
    exists t', resolve P (de_globals P d) t = Ok t' /\
      forall nm tg v x, ACC nm tg v t x -> bear P W v t' = true.
  Proof.
    intros KT C S. revert KT C. induction t using pytype_ind'; intros KT C; try contradiction;
      try (match type of C with Cov _ _ ?t => pose proof (de_lookup P d t (proj1 S) (eq_refl : needed t = true) (proj1 C t (eq_refl : needed t = true) (sub_refl t))) as L end;
           eexists; split; [exact L|]; intros nm tg v x A; eapply (acc_bear P W reuse hook (vsize v) v (le_n _) _ nm tg false x); [|exact A];
           apply (carrier_tyok P W tg); exact KT).
    - exists (TPrim p). split; [reflexivity|]. intros nm tg v x A. apply acc_prim in A as [A _]. now apply prim_val_inst.
    - exists (TPrim p). split; [reflexivity|]. intros nm tg v x A. apply acc_new in A as [A _]. now apply prim_val_inst.
    - exists TAny. split; reflexivity.
    - apply carrier_opt in KT as [a [-> [Ha KT]]]. inversion H as [|? ? Ha' _]; subst.
      destruct (Ha' KT) as [t' [R B]]; [eapply Cov_sub; [exact C|]; eapply sub_union; [now left|constructor]|].
      exists (TUnion [t'; TNone]). split; [cbn [resolve mapM]; rewrite R; reflexivity|].
      intros nm tg v x A. cbn [bear existsb]. apply acc_opt in A as [[-> _]|[_ A]]; auto; [now rewrite orb_true_r|].
      now rewrite (B _ _ _ _ A).
    - destruct IHt as [t' [R B]]; [exact KT|eapply Cov_sub; [exact C|constructor; constructor]|].
      exists (TList LList t'). split; [cbn [resolve]; now rewrite R|]. intros nm tg v x A.
      apply acc_list in A as [l [s [l' [-> [-> F]]]]]. cbn [bear list_inst andb]. unfold picked. destruct (w_pick W _); [|reflexivity].
      destruct (nth_opt l n) eqn:E; [|reflexivity]. destruct (Forall2_nth _ _ _ _ _ F E) as [y [_ Hy]]. eauto.
    - destruct KT as [K1 [K2 KT]]. destruct IHt as [t' [R B]]; [exact KT|eapply Cov_sub; [exact C|constructor; constructor]|].
      exists (TSet SkSet t'). split; [cbn [resolve]; now rewrite R|]. intros nm tg v x A.
      apply acc_set in A as [l [s [l' [-> [-> [F _]]]]]]. destruct k; try congruence; cbn [set_kind bear set_inst andb]; unfold picked;
        (destruct (w_pick W _); [|reflexivity]; destruct (nth_opt l n) eqn:E; [|reflexivity]; destruct (Forall2_nth _ _ _ _ _ F E) as [y [_ Hy]]; eauto).
    - destruct IHt as [t' [R B]]; [exact KT|eapply Cov_sub; [exact C|constructor; constructor]|].
      exists (TDeque t'). split; [cbn [resolve]; now rewrite R|]. intros nm tg v x A.
      apply acc_deque in A as [l [s [l' [-> [-> F]]]]]. cbn [bear]. unfold picked. destruct (w_pick W _); [|reflexivity].
      destruct (nth_opt l n) eqn:E; [|reflexivity]. destruct (Forall2_nth _ _ _ _ _ F E) as [y [_ Hy]]. eauto.
    - exists (TBare (BDict DkDict)). split; [reflexivity|]. intros nm tg v x A.
      apply acc_counter in A as [l [m [l' [-> _]]]]. reflexivity.
    - destruct KT as [K1 [K2 [K3 K4]]].
      destruct IHt1 as [t1' [R1 B1]]; [exact K2|eapply Cov_sub; [exact C|constructor; constructor]|].
      destruct IHt2 as [t2' [R2 B2]]; [exact K3|eapply Cov_sub; [exact C|apply sub_dict_v; constructor]|].
      exists (TDict DkDict t1' t2'). split; [cbn [resolve]; now rewrite R1, R2|]. intros nm tg v x A.
      apply acc_dict in A as [m [l [m' [l' [-> [-> [D [F _]]]]]]]]. cbn [bear dict_inst andb]. unfold picked. destruct (w_pick W _); [|reflexivity].
      destruct (nth_opt l n) as [[a b]|] eqn:E; [|reflexivity]. destruct (Forall2_nth _ _ _ _ _ F E) as [y [_ [Hy Hz]]]. cbn [fst snd] in *.
      rewrite (B2 _ _ _ _ Hz), andb_true_r. destruct Hy as [Hy|[-> [z [s [-> _]]]]]; [eauto|].
      cbn [resolve] in R1. injection R1 as <-. reflexivity.
    - apply carrier_tuple in KT as [NE KT].
      assert (G : exists ts', mapM (resolve P (de_globals P d)) l = Ok ts' /\
        Forall2 (fun t t' => forall nm tg v x, ACC nm tg v t x -> bear P W v t' = true) l ts').
      { assert (CC : Forall (Cov P d) l).
        { apply Forall_forall. intros t Ht. eapply Cov_sub; [exact C|]. eapply sub_tuple; [exact Ht|constructor]. }
        clear C NE. induction l as [|t l IHl]; [exists []; split; [reflexivity|constructor]|].
        inversion H; inversion KT; inversion CC; subst. destruct IHl as [ts' [M F]]; auto.
        match goal with G : carrier P t -> Cov P d t -> _ |- _ => destruct G as [t' [R B]]; auto end.
        exists (t' :: ts'). split; [cbn [mapM]; rewrite R; cbn [bind]; now rewrite M|now constructor]. }
      destruct G as [ts' [M F]]. exists (TTuple ts'). split; [destruct l; [congruence|]; cbn [resolve]; now rewrite M|].
      intros nm tg v x A. apply acc_tuple in A as [vs [s [l' [-> [-> [_ FA]]]]]]. cbn [bear]. clear -F FA. revert vs l' FA.
      induction F as [|t t' ts ts' HB F IH]; intros vs l' FA; inversion FA; subst; [reflexivity|].
      apply andb_true_intro. split; eauto.
    - destruct IHt as [t' [R B]]; [exact KT|eapply Cov_sub; [exact C|constructor; constructor]|].
      exists (TVarTuple t'). split; [cbn [resolve]; now rewrite R|]. intros nm tg v x A.
      apply acc_vartuple in A as [l [s [l' [-> [-> F]]]]]. cbn [bear]. unfold picked. destruct (w_pick W _); [|reflexivity].
      destruct (nth_opt l n) eqn:E; [|reflexivity]. destruct (Forall2_nth _ _ _ _ _ F E) as [y [_ Hy]]. eauto.
    - destruct KT as [K1 K2].
      exists (TBare match b with BList _ => BList LList | BSet _ => BSet SkSet | BDict _ => BDict DkDict | b => b end).
      split; [destruct b; reflexivity|]. intros nm tg v x A. inversion A; subst; reflexivity.
  Qed.

  (** Code whose data fails *)
  Lemma raise_carrier d cfg nm t call mg mgtv vta rho : de_plain cfg nm false -> carrier P t -> Cov P d t -> scope_ok P d -> forall a e,
    arg_ok P W d a t -> da_inner a = true -> da_alias a = [] ->
    (exists ex, eval P W call (ctxof d mg mgtv vta) rho (da_var a) = Raise ex) -> de_ty P W cfg a t = Ok e ->
    exists ex, eval P W call (ctxof d mg mgtv vta) rho e = Raise ex.
  Proof.
    intros HP KT C S. revert KT C.
    assert (DT : forall a t, da_inner a = true -> da_data W a t = Ok (da_var a)) by (intros a u E; unfold da_data; now rewrite E).
    assert (PD : forall a t, da_inner a = true -> da_alias a = [] -> prim_data W a t = Ok (da_var a))
      by (intros a u E E'; unfold prim_data; rewrite E'; now apply DT).
    induction t using pytype_ind'; intros KT C a e HA I1 NA [ex X] He; try contradiction;
      rewrite (de_ty_core P W NoDes cfg nm false) in He by first [exact HP | apply HA | discriminate];
      inv_bind He; unfold de_default in He; (assert (DD : da_default a = false) by (apply HA; exact I1)); rewrite DD in He; cbn [andb] in He;
      injection He as <-; cbn [de_core] in Hb;
      try (match type of C with Cov _ _ ?t => pose proof (de_lookup P d t (proj1 S) (eq_refl : needed t = true) (proj1 C t (eq_refl : needed t = true) (sub_refl t))) as L end).
    - unfold de_prim in Hb. rewrite PD in Hb by assumption. cbn [bind] in Hb.
      destruct (is_float_class _), (d_suppress cfg); injection Hb as <-; cbn; rewrite ?X; eauto; destruct (dn); cbn; rewrite ?X; eauto.
    - unfold de_prim in Hb. rewrite PD in Hb by assumption. cbn [bind] in Hb. rewrite andb_false_r in Hb.
      destruct (is_float_class _); injection Hb as <-; cbn [eval x_g de_ctx]; rewrite ?L; cbn [bind]; rewrite ?X; cbn [bind]; eauto.
      cbn [x_dn de_ctx]. destruct dn; cbn; rewrite ?X; cbn; eauto.
    - unfold de_prim in Hb. rewrite PD in Hb by assumption. cbn [bind] in Hb.
      destruct (is_float_class _), (d_suppress cfg); injection Hb as <-; cbn; rewrite ?X; eauto; destruct (dn); cbn; rewrite ?X; eauto.
    - rewrite DT in Hb by assumption. injection Hb as <-. eauto.
    - apply carrier_opt in KT as [b [-> [Ha KT]]]. rewrite opt_arg_some in Hb by exact Ha. rewrite I1, orb_true_r, DT in Hb by assumption.
      cbn [bind] in Hb. inv_bind Hb. injection Hb as <-. cbn [eval]. rewrite X. cbn [bind]. eauto.
    - inv_bind Hb. rewrite DT in Hb by assumption. injection Hb as <-. cbn [eval]. rewrite X. cbn [bind]. eauto.
    - inv_bind Hb. rewrite DT in Hb by assumption. injection Hb as <-. cbn [eval]. rewrite X. cbn [bind]. eauto.
    - inv_bind Hb. rewrite DT in Hb by assumption. injection Hb as <-. cbn [eval]. rewrite X. cbn [bind]. eauto.
    - inv_bind Hb. rewrite DT in Hb by assumption. injection Hb as <-. cbn [eval]. rewrite X. cbn [bind]. eauto.
    - inv_bind Hb. inv_bind Hb. rewrite DT in Hb by assumption. cbn [bind] in Hb.
      destruct k; injection Hb as <-; cbn [eval]; rewrite X; cbn [bind]; eauto. destruct (_ || _); eauto.
    - apply carrier_tuple in KT as [NE KT]. destruct l as [|t0 ts]; [congruence|]. rewrite DT in Hb by assumption. cbn [bind mapMi_from] in Hb.
      inv_bind Hb. injection Hb as <-. inv_bind Hb0. inv_bind Hb0. injection Hb0 as <-.
      inversion H as [|? ? G _]; subst. inversion KT; subst.
      destruct (G ltac:(assumption)) with (a := inner_arg a (show (EIdx (da_var a) 0)) (EIdx (da_var a) 0)) (e := a0) as [ex' E']; auto.
      + eapply Cov_sub; [exact C|]. eapply sub_tuple; [now left|constructor].
      + eapply arg_ok_inner; eauto.
      + cbn [inner_arg da_var eval]. rewrite X. cbn [bind]. eauto.
      + cbn [eval mapM]. rewrite E'. cbn [bind]. eauto.
    - rewrite DT in Hb by assumption. inv_bind Hb. inv_bind Hb. injection Hb as <-. injection Hb0 as <-. cbn [eval]. rewrite X. cbn [bind]. eauto.
    - destruct KT as [K1 K2]. destruct b as [k|k|[]| | |]; try congruence; rewrite DT in Hb by assumption; cbn [bind] in Hb; injection Hb as <-;
        cbn [eval]; rewrite ?X; cbn [bind]; eauto.
    - rewrite PD in Hb by assumption. cbn [bind] in Hb. injection Hb as <-. cbn [eval x_g de_ctx]. rewrite L. cbn [bind]. rewrite X. cbn [bind]. eauto.
    - unfold de_class in Hb. pose proof HA as (_ & HF & _). rewrite HF, DT in Hb by assumption. cbn [bind] in Hb. injection Hb as <-. cbn [eval x_g de_ctx].
      assert (TG : forall tgt, tgt = DtCls \/ tgt = DtName (TClass c) ->
        (exists q, match tgt with DtCls => Ok (x_cls (ctxof d mg mgtv vta)) | DtName t => t' <- resolve P (de_globals P d) t ;;
           match t' with TClass c => of_option XAttr (get_class P c) | _ => Raise XAttr end end = Ok q) \/
        (exists q, match tgt with DtCls => Ok (x_cls (ctxof d mg mgtv vta)) | DtName t => t' <- resolve P (de_globals P d) t ;;
           match t' with TClass c => of_option XAttr (get_class P c) | _ => Raise XAttr end end = Raise q)).
      { intros tgt [->| ->]; [eauto|]. rewrite L. cbn [bind]. destruct (get_class P c); cbn [of_option]; eauto. }
      match goal with |- context [match ?tgt with DtCls => _ | DtName _ => _ end] =>
        destruct (TG tgt) as [[q Eq]|[q Eq]]; [destruct (da_parent a) as [p|]; [destruct (String.eqb p c)|]; auto| |] end;
        rewrite Eq; cbn [bind]; rewrite ?X; cbn [bind]; eauto.
    - rewrite DT in Hb by assumption. cbn [bind] in Hb. injection Hb as <-. cbn [eval x_g x_reuse de_ctx bind]. rewrite truthy_bool, L.
      cbn [bind]. rewrite X. destruct reuse; cbn [bind]; eauto.
    - rewrite DT in Hb by assumption. cbn [bind] in Hb. injection Hb as <-. cbn [eval x_g x_reuse de_ctx bind]. rewrite truthy_bool, L.
      cbn [bind]. rewrite X. destruct reuse; cbn [bind]; eauto.
  Qed.

  (** None never passes for a container. *)
  Lemma none_not_bulk d call t e : bulk t = true -> carrier P t -> Cov P d t -> scope_ok P d ->
    de_ty P W (union_de_cfg d) union_de_arg t = Ok e ->
    exists ex, run_arm P W call (ctxof d None None None) t e VNone = Raise ex.
  Proof.
    intros B KT C S He. unfold run_arm.
    assert (AD : arm_data P (ctxof d None None None) t VNone = Ok VNone) by (destruct t; try discriminate B; reflexivity).
    rewrite AD. cbn [bind].
    assert (NP : is_primitive P t || is_none t = false) by (destruct t; try discriminate B; reflexivity). rewrite NP. cbn [bind].
    assert (EX : exists ex, eval P W call (ctxof d None None None) [("fake_dict", VMap MDict [(VStr "fake_key", VNone)]); ("data", VNone)] e = Raise ex);
      [|destruct EX as [ex ->]; cbn [bind]; eauto].
    rewrite (de_ty_core P W NoDes (union_de_cfg d) true false) in He;
      [|apply union_cfg_plain_de|reflexivity|reflexivity|destruct t; discriminate|destruct t; discriminate].
    inv_bind He. assert (e = a) by (cbn in He; congruence). subst a. clear He. rename Hb into He.
    assert (DT : da_data W union_de_arg t = Ok fake) by (destruct t; try discriminate B; reflexivity).
    destruct t; try discriminate B; cbn [de_core] in He; rewrite ?DT in He; cbn [bind] in He.
    - inv_bind He. injection He as <-. cbn [eval]. rewrite fake_eval. cbn. eauto.
    - inv_bind He. injection He as <-. cbn [eval]. rewrite fake_eval. cbn. eauto.
    - inv_bind He. injection He as <-. cbn [eval]. rewrite fake_eval. cbn. eauto.
    - inv_bind He. injection He as <-. cbn [eval]. rewrite fake_eval. cbn. eauto.
    - inv_bind He. inv_bind He. destruct k; injection He as <-; cbn [eval]; rewrite fake_eval; cbn; eauto; match goal with |- context [if ?b then _ else _] => destruct b end; eauto.
    - apply carrier_tuple in KT as [NE KT]. destruct l as [|t0 ts]; [congruence|]. cbn [bind mapMi_from] in He. rewrite ?DT in He. cbn [bind] in He. inv_bind He.
      injection He as <-. inv_bind Hb. inv_bind Hb. injection Hb as <-. inversion KT; subst. cbn [eval mapM].
      destruct (raise_carrier d (union_de_cfg d) true t0 call None None None [("fake_dict", VMap MDict [(VStr "fake_key", VNone)]); ("data", VNone)]
        (union_cfg_plain_de d)) with (a := inner_arg union_de_arg (show (EIdx fake 0)) (EIdx fake 0)) (e := a0) as [ex E]; auto.
      + eapply Cov_sub; [exact C|]. eapply sub_tuple; [now left|constructor].
      + eapply arg_ok_inner; [apply (union_arg_ok d TAny)|reflexivity].
      + cbn [inner_arg da_var eval]. rewrite fake_eval. cbn. eauto.
      + rewrite E. cbn [bind]. eauto.
    - inv_bind He. injection He as <-. cbn [eval]. rewrite fake_eval. cbn. eauto.
  Qed.

  Lemma prim_arm call cx p v : dn = x_dn cx -> scalar_val v = true ->
    (exists ex, run_arm P W call cx (TPrim p) (arm_expr (TPrim p)) v = Raise ex) \/ run_arm P W call cx (TPrim p) (arm_expr (TPrim p)) v = Ok v.
  Proof.
    intros D S. unfold run_arm. cbn [arm_data taggable bind is_primitive orb resolve].
    destruct (bear P W v (TPrim p)) eqn:B; cbn [bind]; [|eauto]. right.
    assert (E : eval P W call cx [("fake_dict", VMap MDict [(VStr "fake_key", v)]); ("data", v)] (arm_expr (TPrim p)) = Ok v).
    { destruct p; cbn [arm_expr]; try apply fake_eval. cbn [eval bind]. unfold fake. cbn [eval bind slookup of_option].
      cbn. rewrite <- D. destruct dn as [h|] eqn:Eh; [|reflexivity]. cbn [has_some].
      cbn. destruct v; try discriminate S; try discriminate B. now apply HookFloat. }
    rewrite E. cbn [bind]. rewrite B. reflexivity.
  Qed.
  Lemma none_arm call cx v : scalar_val v = true ->
    (exists ex, run_arm P W call cx TNone ENone v = Raise ex) \/ run_arm P W call cx TNone ENone v = Ok v.
  Proof. intros S. unfold run_arm. cbn. destruct v; try discriminate S; cbn; eauto. Qed.

  Lemma bear_prim p v : prim_val p v = true -> bear P W v (TPrim p) = true.
  Proof. apply prim_val_inst. Qed.

  Lemma union_tagged tg l c : union_ok P W tg l -> In (TClass c) l -> tg <> Untagged.
  Proof. intros [_ [U _]] H. destruct (U c H) as [d [_ V]]. intros ->. exact V. Qed.

  (** A member of the union that is a primitive or None *)
  Lemma union_scalar d l v n : union_ok P W (c_tagging d) l -> scope_ok P d -> Cov P d (TUnion l) ->
    (exists p, In (TPrim p) l /\ prim_val p v = true) \/ In TNone l /\ v = VNone ->
    run (S n) (QUnionDe d (union_func_name P "union_de" l) v reuse dn) = Ok v.
  Proof.
    intros U SC CV H. rewrite run_S. unfold step. pose proof SC as [_ [S _]].
    rewrite (find_union_ok P d "union_de" l S (proj1 (proj2 CV) l (sub_refl _))). cbn [of_option bind].
    destruct (render_de_arms d _ l U) as [arms [-> F]]. cbn [bind].
    assert (SV : scalar_val v = true) by (destruct H as [[p [_ H]]|[_ ->]]; [eapply prim_val_scalar; eauto|reflexivity]).
    pose proof U as (UA & _). rewrite Forall_forall in UA.
    assert (EARLY : forall u a, In u l -> bulk u = false -> fst a = u /\ de_ty P W (union_de_cfg d) union_de_arg u = Ok (snd a) ->
      (exists e, run_arm P W (run n) (ctxof d None None None) (fst a) (snd a) v = Raise e) \/ run_arm P W (run n) (ctxof d None None None) (fst a) (snd a) v = Ok v).
    { intros u [u' e] Hu B [E1 E2]. cbn [fst snd] in *. subst u'. rewrite (arm_de d u (UA u Hu) B) in E2. injection E2 as <-.
      destruct (arm_cases P u (UA u Hu)) as [[p ->]|[->|[[c [-> _]]|[B' _]]]]; [now apply prim_arm|now apply none_arm| |congruence].
      left. apply scalar_not_class; [unfold flat_val; now rewrite SV|]. cbn [de_ctx x_cls]. eapply union_tagged; eauto. }
    destruct H as [[p [H1 H2]]|[H1 ->]].
    - destruct (in_split _ _ H1) as [l1 [l2 E]]. rewrite E in F.
      eapply run_union_de_ok; [exact F| |].
      + intros u a Hu R. apply (EARLY u a); auto; [rewrite E; apply in_or_app; now left|].
        eapply union_bulk_before; [exact U|exact E|discriminate|exact Hu].
      + intros [t' e] [E1 E2]. cbn [fst snd] in *. subst t'. rewrite (arm_de d (TPrim p) (UA _ H1) eq_refl) in E2. injection E2 as <-.
        destruct (prim_arm (run n) (ctxof d None None None) p v eq_refl SV) as [[ex X]|X]; [|exact X].
        exfalso. unfold run_arm in X. cbn [arm_data taggable bind is_primitive orb resolve] in X. rewrite (bear_prim p v H2) in X. cbn [bind] in X.
        replace (eval P W (run n) (ctxof d None None None) [("fake_dict", VMap MDict [(VStr "fake_key", v)]); ("data", v)] (arm_expr (TPrim p)))
          with (Ok v) in X.
        2: { destruct p; cbn [arm_expr]; rewrite ?fake_eval; try reflexivity. cbn. destruct dn as [h|] eqn:Eh; [|reflexivity].
             cbn. destruct v; try discriminate H2. symmetry. now apply HookFloat. }
        cbn [bind] in X. rewrite (bear_prim p v H2) in X. discriminate X.
    - destruct (in_split _ _ H1) as [l1 [l2 E]]. rewrite E in F.
      eapply run_union_de_ok; [exact F| |].
      + intros u a Hu R. assert (Hu' : In u l) by (rewrite E; apply in_or_app; now left).
        destruct (bulk u) eqn:B; [|now apply (EARLY u a)].
        left. destruct a as [u' e]. destruct R as [R1 R2]. cbn [fst snd] in *. subst u'.
        destruct (arm_cases P u (UA u Hu')) as [[p ->]|[->|[[c [-> _]]|[_ [KT _]]]]]; try discriminate B.
        apply (none_not_bulk d); auto. eapply Cov_sub; [exact CV|]. eapply sub_union; [exact Hu'|constructor].
      + intros [t' e] [E1 E2]. cbn [fst snd] in *. subst t'. rewrite (arm_de d TNone (UA _ H1) eq_refl) in E2. injection E2 as <-. reflexivity.
  Qed.

  Definition ClassGood (v : pyval) (c : string) : Prop :=
    forall d nm tg x, get_class P c = Some d -> ACC nm tg v (TClass c) x ->
    ev (fun n => forall mg mgtv vta ro, flag ro (c_reuse d) = reuse -> run n (QDe d x nm ro dn mg mgtv vta) = Ok v).

  Lemma union_good d nm l v x : union_ok P W (c_tagging d) l -> scope_ok P d -> Cov P d (TUnion l) -> is_opt (TUnion l) = false ->
    ACC nm (c_tagging d) v (TUnion l) x -> (forall c, ClassGood v c) ->
    (forall t e, In t l -> bulk t = true -> carrier P t -> ACC true (c_tagging d) v t x -> de_ty P W (union_de_cfg d) union_de_arg t = Ok e ->
       ev (fun n => eval P W (run n) (ctxof d None None None) [("fake_dict", VMap MDict [(VStr "fake_key", x)]); ("data", x)] e = Ok v)) ->
    ev (fun n => run n (QUnionDe d (union_func_name P "union_de" l) x reuse dn) = Ok v).
  Proof.
    intros U S C O A HC HB.
    assert (I : In (TUnion l) (iter_unions P d)) by (apply C; constructor).
    pose proof U as (UA & _). rewrite Forall_forall in UA.
    assert (HA : (exists t, In t l /\ bulk t = true /\ ACC true (c_tagging d) v t x) \/ (exists c kvs y, In (TClass c) l /\ x = VMap MDict kvs /\ ACC true (c_tagging d) v (TClass c) y /\
                   arm_data P (ctxof d None None None) (TClass c) x = Ok y /\
                   (forall c', In (TClass c') l -> c' <> c -> exists ex, arm_data P (ctxof d None None None) (TClass c') x = Raise ex))
            \/ x = v /\ ((exists p, In (TPrim p) l /\ prim_val p v = true) \/ In TNone l /\ v = VNone)).
    { assert (NE : forall c c', In (TClass c) l -> In (TClass c') l -> c' <> c ->
                eqv P (VStr (typename P (TClass c'))) (VStr (typename P (TClass c))) = false).
      { intros c c' H1 H2 N. destruct U as (_ & _ & U & _). destruct (U c' c H2 H1 N) as [N1 _].
        unfold eqv. rewrite py_eqb_str. now apply String.eqb_neq. }
      assert (SE : forall s, eqv P (VStr s) (VStr s) = true) by (intros; unfold eqv; rewrite py_eqb_str; apply String.eqb_refl).
      assert (AD : forall c y, arm_data P (ctxof d None None None) (TClass c) y =
         match c_tagging d with
         | TagExternal => b <- py_in P (typename P (TClass c)) y ;; _ <- ensure b ;; getitem P y (typename P (TClass c))
         | TagInternal tag =>
           b <- py_in P tag y ;; _ <- ensure b ;;
           x <- getitem P y tag ;; _ <- ensure (eqv P (VStr (typename P (TClass c))) x) ;; Ok y
         | TagAdjacent tag content =>
           b <- py_in P tag y ;; _ <- ensure b ;;
           b <- py_in P content y ;; _ <- ensure b ;;
           x <- getitem P y tag ;; _ <- ensure (eqv P (VStr (typename P (TClass c))) x) ;; getitem P y content
         | Untagged => Ok y
         end) by reflexivity.
      remember (c_tagging d) as tg eqn:Htg.
      inversion A; subst; try (cbn [is_opt] in O; match goal with E : is_none _ = false |- _ => rewrite E in O; discriminate O end).
      - right. right. eauto.
      - right. right. eauto.
      - left. exists t. repeat split; auto.
      - right. left. match goal with E : _ = c_tagging d |- _ => rename E into Htg end. match goal with E : skey _ _ _ = Some ?y, N : forall c', _ -> _ -> skey _ _ _ = None |- _ => exists c, kvs, y; rename E into E1; rename N into N1 end.
        repeat split; auto.
        + rewrite AD, <- Htg, !py_in_map, E1. cbn [has_some bind ensure]. now apply getitem_map.
        + intros c' I' N. rewrite AD, <- Htg, !py_in_map, (N1 c' I' N). cbn [has_some bind ensure]. eauto.
      - right. left. match goal with E : _ = c_tagging d |- _ => rename E into Htg end. match goal with E : skey _ _ _ = Some _ |- _ => exists c, kvs, (VMap MDict kvs); rename E into E1 end.
        repeat split; auto.
        + rewrite AD, <- Htg, !py_in_map, E1. cbn [has_some bind ensure]. rewrite (getitem_map _ _ _ _ E1). cbn [bind]. rewrite SE. reflexivity.
        + intros c' I' N. rewrite AD, <- Htg, !py_in_map, E1. cbn [has_some bind ensure]. rewrite (getitem_map _ _ _ _ E1). cbn [bind].
          rewrite (NE c c') by assumption. cbn [ensure bind]. eauto.
      - right. left. match goal with E : _ = c_tagging d |- _ => rename E into Htg end. match goal with E : skey _ _ tag = Some _, E' : skey _ _ content = Some ?y |- _ => exists c, kvs, y; rename E into E1; rename E' into E2 end.
        repeat split; auto.
        + rewrite AD, <- Htg, !py_in_map, E1, E2. cbn [has_some bind ensure]. rewrite (getitem_map _ _ _ _ E1). cbn [bind]. rewrite SE. cbn [ensure bind]. now apply getitem_map.
        + intros c' I' N. rewrite AD, <- Htg, !py_in_map, E1, E2. cbn [has_some bind ensure]. rewrite (getitem_map _ _ _ _ E1). cbn [bind].
          rewrite (NE c c') by assumption. cbn [ensure bind]. eauto. }
    destruct HA as [[t [H1 [B HT]]]|[[c [kvs [y [H1 [-> [H3 [H4 H5]]]]]]]|[-> H]]].
    3: { apply (ev_mono (fun n => match n with O => False | S _ => True end)).
         - exists 1. intros [|n] Hn; [lia|exact Logic.I].
         - intros [|n] Hn; [contradiction|]. now apply union_scalar. }
    - destruct (arm_cases P t (UA t H1)) as [[p ->]|[->|[[c [-> _]]|[_ [KT _]]]]]; try discriminate B.
      destruct (render_de_arms d _ l U) as [arms [R F]].
      assert (CT : Cov P d t) by (eapply Cov_sub; [exact C|]; eapply sub_union; [exact H1|constructor]).
      destruct (resolve_carrier d t KT CT S) as [t' [RT BT]]. specialize (BT _ _ _ _ HT).
      destruct (in_split _ _ H1) as [l1 [l2 E]].
      assert (He : exists e, de_ty P W (union_de_cfg d) union_de_arg t = Ok e).
      { rewrite E in F. apply Forall2_app_inv_l in F as [a1 [a2 [_ [F _]]]]. inversion F; subst. match goal with G : fst _ = t /\ _ |- _ => destruct G; eauto end. }
      destruct He as [e He]. pose proof (ev_S _ (HB t e H1 B KT HT He)) as EV. eapply ev_mono; [exact EV|]. cbv beta.
      intros [|n] Hn; [contradiction|]. rewrite run_S. unfold step. pose proof S as [S1 [S2 S3]].
      rewrite (find_union_ok P d "union_de" l S2 I). cbn [of_option bind]. rewrite R. cbn [bind].
      rewrite E in F. eapply run_union_de_ok; [exact F| |].
      + intros u [u' e'] Hu [R1 R2]. cbn [fst snd] in *. subst u'. left.
        assert (Hu' : In u l) by (rewrite E; apply in_or_app; now left).
        assert (X : (exists s l, x = VSeq s l) \/ mapping t = true /\ exists m l, x = VMap m l).
        { destruct t; try discriminate B.
          - apply acc_list in HT as [? [? [? [_ [-> _]]]]]. eauto.
          - apply acc_set in HT as [? [? [? [_ [-> _]]]]]. eauto.
          - apply acc_deque in HT as [? [? [? [_ [-> _]]]]]. eauto.
          - apply acc_counter in HT as [? [? [? [_ [-> _]]]]]. eauto.
          - apply acc_dict in HT as [? [? [? [? [_ [-> _]]]]]]. eauto.
          - apply acc_tuple in HT as [? [? [? [_ [-> _]]]]]. eauto.
          - apply acc_vartuple in HT as [? [? [? [_ [-> _]]]]]. eauto. }
        assert (X' : (exists s l, x = VSeq s l) \/ exists m l, x = VMap m l) by (destruct X as [X|[_ X]]; auto).
        destruct (arm_cases P u (UA u Hu')) as [[p ->]|[->|[[c [-> _]]|[B' _]]]].
        * apply map_not_prim; eauto.
        * apply map_not_prim; eauto.
        * destruct X as [[s [xs ->]]|[M _]].
          -- apply scalar_not_class; [reflexivity|]. cbn [de_ctx x_cls]. eapply union_tagged; eauto.
          -- destruct U as (_ & _ & _ & _ & U). now destruct (U t c H1 M).
        * rewrite (union_bulk_before P W (c_tagging d) l l1 t l2 u) in B'; auto; [discriminate|intros ->; discriminate].
      + intros [u' e'] [R1 R2]. cbn [fst snd] in *. subst u'. rewrite He in R2. injection R2 as <-.
        unfold run_arm. replace (arm_data P (ctxof d None None None) t x) with (Ok x) by (destruct t; try discriminate B; reflexivity).
        cbn [bind]. replace (is_primitive P t || is_none t) with false by (destruct t; try discriminate B; reflexivity). cbn [bind].
        rewrite Hn. cbn [bind x_g de_ctx]. rewrite RT. cbn [bind]. rewrite BT. reflexivity.
    - pose proof U as (_ & U2 & _). destruct (U2 c H1) as [dc [Hdc _]].
      specialize (HC c dc true (c_tagging d) y Hdc H3). apply ev_S in HC. eapply ev_mono; [exact HC|]. cbv beta.
      intros [|n] Hn; [contradiction|]. rewrite run_S. unfold step. destruct S as [S1 [S2 S3]].
      rewrite (find_union_ok P d "union_de" l S2 I). cbn [of_option bind].
      destruct (render_de_arms d _ l U) as [arms [-> F]]. cbn [bind].
      assert (RA : run_arm P W (run n) (ctxof d None None None) (TClass c) (arm_expr (TClass c)) (VMap MDict kvs) = Ok v).
      { unfold run_arm. rewrite H4. cbn [bind is_primitive is_none orb]. cbn [arm_expr eval x_g de_ctx].
        assert (L : resolve P (de_globals P d) (TClass c) = Ok (TClass c)).
        { apply de_lookup; auto. apply C; auto. econstructor; [exact H1|constructor]. }
        rewrite L. cbn [bind]. rewrite Hdc. cbn [of_option bind]. rewrite fake_eval. cbn [bind x_reuse x_dn x_mg x_mgtv de_ctx].
        rewrite (Hn None None None (Some reuse) eq_refl). cbn [bind].
        destruct (acc_class _ _ _ _ _ _ _ _ _ H3) as [attrs ->]. cbn [bear named_inst]. unfold obj_isa. rewrite String.eqb_refl. reflexivity. }
      destruct (in_split _ _ H1) as [l1 [l2 E]]. rewrite E in F. eapply run_union_de_ok; [exact F| |].
      + intros u [u' e'] Hu [R1 R2]. cbn [fst snd] in *. subst u'.
        assert (Hu' : In u l) by (rewrite E; apply in_or_app; now left).
        assert (B' : bulk u = false) by (eapply union_bulk_before; [exact U|exact E|discriminate|exact Hu]).
        rewrite (arm_de d u (UA u Hu') B') in R2. injection R2 as <-.
        destruct (arm_cases P u (UA u Hu')) as [[p ->]|[->|[[c0 [-> _]]|[B2 _]]]]; [| | |congruence].
        * left. apply map_not_prim; eauto.
        * left. apply map_not_prim; eauto.
        * destruct (string_dec c0 c) as [->|N]; [now right|]. left. unfold run_arm. destruct (H5 c0 Hu' N) as [ex ->]. cbn [bind]. eauto.
      + intros [u' e'] [R1 R2]. cbn [fst snd] in *. subst u'. rewrite (arm_de d (TClass c) (UA _ H1) eq_refl) in R2. injection R2 as <-. exact RA.
  Qed.

  (** ** Keys that are absent *)
  Lemma absent_default call cx rho d a t e e' m kvs k v :
    arg_ok P W d a t -> da_inner a = false -> da_iter a = false -> da_default a = true ->
    eval P W call cx rho (da_var a) = Ok (VMap m kvs) -> da_key W a = Ok k -> first_key P kvs (k :: da_alias a) = None ->
    default_of cx (da_name a) = Ok v -> de_default P W a t e = Ok e' -> eval P W call cx rho e' = Ok v.
  Proof.
    intros HA I1 I2 Hd Hv Hk Hf Hdef D. pose proof HA as (_ & HF & _). unfold de_default in D. rewrite HF, Hd, I2 in D. cbn [andb negb] in D.
    destruct (da_alias a) as [|y l] eqn:Ea.
    - rewrite Hk in D. cbn [bind] in D. injection D as <-. cbn [eval]. rewrite Hv. cbn [bind]. rewrite py_in_map.
      cbn [first_key] in Hf. destruct (skey P kvs k); [discriminate|]. exact Hdef.
    - destruct (alias_lits_ok P W d a t HA) as [k' [K1 [K2 [K3 K4]]]]; [congruence|]. rewrite K3 in D. cbn [bind] in D.
      injection D as <-. cbn [eval]. rewrite Hv. cbn [bind]. rewrite exists_aliases_map. rewrite Hk in K1. injection K1 as <-.
      rewrite <- K2 in Hdef |- *. rewrite Ea in *. rewrite Hf. exact Hdef.
  Qed.

  Lemma absent_null d tg co cfg nm : scope_ok P d -> de_plain cfg nm co -> tg = c_tagging d -> forall t a e k,
    tyok P W tg co t -> Cov P d t -> arg_ok P W d a t -> da_inner a = false -> da_iter a = false -> da_default a = false ->
    da_key W a = Ok k -> nullable t = true -> de_ty P W cfg a t = Ok e ->
    ev (fun n => forall mg mgtv vta rho m kvs, eval P W (run n) (ctxof d mg mgtv vta) rho (da_var a) = Ok (VMap m kvs) ->
          slookup "data" rho = Some (VMap m kvs) -> first_key P kvs (k :: da_alias a) = None ->
          eval P W (run n) (ctxof d mg mgtv vta) rho e = Ok VNone).
  Proof.
    intros S HP -> . induction t using pytype_ind'; intros a e k0 T C HA I1 I2 Hd Hk N He; try discriminate N;
      rewrite (de_ty_core P W NoDes cfg nm co) in He by first [exact HP | apply HA | discriminate];
      inv_bind He; unfold de_default in He; rewrite Hd in He; cbn [andb] in He; injection He as <-; cbn [de_core] in Hb.
    - injection Hb as <-. apply ev_always. reflexivity.
    - destruct (is_opt (TUnion l)) eqn:O.
      + destruct (opt_shape l O) as [x [-> Hx]]. rewrite opt_arg_some in Hb by exact Hx.
        rewrite I1, I2 in Hb. cbn [orb] in Hb. rewrite Hk in Hb. cbn [bind] in Hb. inv_bind Hb. inv_bind Hb. injection Hb as <-.
        apply ev_always. intros n mg mgtv vta rho m kvs E1 E2 E3. cbn [eval].
        assert (E4 : eval P W (run n) (ctxof d mg mgtv vta) rho a1 = Ok (VBool false)).
        { destruct (da_alias a) as [|y al] eqn:Ea.
          - injection Hb0 as <-. cbn [eval]. rewrite E1. cbn [bind getopt]. cbn [first_key] in E3. unfold skey in E3.
            destruct (dget _ _ _); [discriminate|reflexivity].
          - destruct (alias_lits_ok P W d a _ HA) as [k' [K1 [K2 [K3 K4]]]]; [congruence|]. rewrite Hk in K1. injection K1 as <-.
            rewrite Ea in K4. rewrite K4 in Hb0. cbn [bind] in Hb0. injection Hb0 as <-. cbn [eval]. rewrite E2. cbn [of_option bind].
            rewrite get_aliases_map, E3. reflexivity. }
        rewrite E4. reflexivity.
      + rewrite opt_arg_none in Hb by exact O. inv_bind Hb. injection Hb as <-.
        assert (NA : da_alias a = []).
        { apply (arg_ok_no_alias P W _ _ _ HA). destruct l as [|x [|y [|]]]; try reflexivity; destruct y; try reflexivity.
          cbn [is_opt] in O. cbn [scalar_ty]. apply negb_false_iff in O. now rewrite O. }
        unfold da_data in Hb0. rewrite I1, I2, Hk in Hb0. cbn [bind] in Hb0. cbn [nullable] in N. unfold has_none_arg in Hb0. rewrite N in Hb0.
        injection Hb0 as <-. exists 1. intros [|n] Hn; [lia|]. intros mg mgtv vta rho m kvs E1 E2 E3. cbn [eval]. rewrite E1. cbn [bind getopt].
        rewrite NA in E3. cbn [first_key] in E3. unfold skey in E3. destruct (dget _ _ _); [discriminate|]. cbn [x_cls x_reuse x_dn de_ctx].
        apply union_scalar; auto.
        * eapply tyok_union; eauto.
        * right. split; [|reflexivity]. apply existsb_exists in N as [y [N1 N2]]. destruct y; try discriminate N2. assumption.
    - cbn [nullable] in N. eapply IHt; eauto.
      + apply T.
      + eapply Cov_sub; eauto. repeat constructor.
  Qed.

  (** ** Calling the constructor *)
  Lemma renderable_read f : renderable f = read f.
  Proof. unfold renderable, read. rewrite negb_orb, andb_assoc. reflexivity. Qed.

  Fixpoint pk (force : bool) (l : list fielddef) : list fielddef * list fielddef :=
    match l with
    | [] => ([], [])
    | f :: r =>
        if read f then
          if force || f_kw_only f then (fst (pk force r), f :: snd (pk force r))
          else (f :: fst (pk force r), snd (pk force r))
        else pk true r
    end.

  Lemma pk_force l : fst (pk true l) = [].
  Proof. induction l; [reflexivity|]. cbn [pk]. destruct (read a); [exact IHl|exact IHl]. Qed.
  Lemma pk_prefix l : exists q, filter (fun f => f_init f && negb (f_kw_only f)) l = fst (pk false l) ++ q.
  Proof.
    induction l as [|f l [q IH]]; [exists []; reflexivity|]. cbn [filter pk].
    destruct (read f) eqn:R.
    - assert (I : f_init f = true) by (unfold read in R; now destruct (f_init f)). rewrite I. cbn [andb orb].
      destruct (f_kw_only f); cbn [negb fst]; [exists q; exact IH|]. exists q. cbn [app]. now rewrite IH.
    - rewrite pk_force. eexists. reflexivity.
  Qed.
  Lemma pk_In b l f : In f (fst (pk b l)) \/ In f (snd (pk b l)) <-> In f l /\ read f = true.
  Proof.
    revert b. induction l as [|g l IH]; intros b; [simpl; tauto|]. cbn [pk]. destruct (read g) eqn:R.
    - destruct (b || f_kw_only g); cbn [fst snd]; simpl; specialize (IH b).
      + split; [intros [H|[->|H]]|intros [[->|H] H']]; try (destruct IH; intuition; fail).
      + split; [intros [[->|H]|H]|intros [[->|H] H']]; try (destruct IH; intuition; fail).
    - rewrite IH. simpl. split; [tauto|]. intros [[->|H] H']; [congruence|tauto].
  Qed.
  Lemma pk_disjoint b l f g : NoDup (map f_name l) -> In f (fst (pk b l)) -> In g (snd (pk b l)) -> f_name f <> f_name g.
  Proof.
    revert b. induction l as [|h l IH]; intros b ND Hf Hg; [contradiction|]. inversion ND; subst.
    assert (X : forall b x, In x (fst (pk b l)) \/ In x (snd (pk b l)) -> f_name h <> f_name x).
    { intros b' x Hx E. apply pk_In in Hx as [Hx _]. apply H1. rewrite E. now apply in_map. }
    cbn [pk] in Hf, Hg. destruct (read h).
    - destruct (b || f_kw_only h); cbn [fst snd] in *.
      + destruct Hg as [<-|Hg]; [intros E; symmetry in E; revert E; apply (X b f); auto|eauto].
      + destruct Hf as [<-|Hf]; [apply (X b g); auto|eauto].
    - eauto.
  Qed.

  Lemma split_pk vals val b l : (forall f, In f l -> read f = true -> slookup (f_name f) vals = Some (val f)) ->
    split_args vals (force_kw b l) = (map val (fst (pk b l)), map (fun f => (f_name f, val f)) (snd (pk b l))).
  Proof.
    revert b. induction l as [|f l IH]; intros b H; [reflexivity|]. cbn [force_kw pk]. rewrite renderable_read.
    assert (IH' : forall b, split_args vals (force_kw b l) = (map val (fst (pk b l)), map (fun f => (f_name f, val f)) (snd (pk b l))))
      by (intros; apply IH; intros; apply H; auto; now right).
    destruct (read f) eqn:R; [|apply IH'].
    specialize (IH' b). unfold split_args in *. injection IH' as I1 I2. cbn [filter snd negb].
    pose proof (H f (or_introl eq_refl) R) as E.
    destruct (b || f_kw_only f); cbn [negb map fst snd]; rewrite ?E, I1, I2; reflexivity.
  Qed.

  Lemma bind_pos_prefix p q val : bind_pos (p ++ q) (map val p) = Some (map (fun f => (f_name f, val f)) p).
  Proof. induction p; simpl; [now destruct q|]. rewrite IHp. reflexivity. Qed.

  Lemma check_force l : check_args true (force_kw true l) = true.
  Proof. induction l; [reflexivity|]. cbn [force_kw]. destruct (renderable a); exact IHl. Qed.
  Fixpoint kws_only (l : list fielddef) : Prop :=
    match l with [] => True | g :: r => if read g then f_kw_only g = true /\ kws_only r else True end.
  Lemma check_kws l : kws_only l -> check_args true (force_kw false l) = true.
  Proof.
    induction l; [reflexivity|]. cbn [kws_only force_kw]. rewrite renderable_read. destruct (read a); [|intros; apply check_force].
    intros [-> H]. cbn [orb check_args]. auto.
  Qed.
  Lemma check_sorted l : kw_sorted l -> check_args false (force_kw false l) = true.
  Proof.
    induction l as [|f l IH]; [reflexivity|]. cbn [kw_sorted force_kw]. rewrite renderable_read. destruct (read f).
    - intros [H1 H2]. cbn [orb]. destruct (f_kw_only f) eqn:E; cbn [check_args negb andb]; [|auto].
      apply check_kws. apply (H1 eq_refl).
    - intros _. clear. induction l; [reflexivity|]. cbn [force_kw]. destruct (renderable a); [apply check_force|exact IHl].
  Qed.

  Lemma construct_ok d val : NoDup (map f_name (c_fields d)) ->
    (forall f, In f (c_fields d) -> read f = false -> dflt f = Some (Ok (val f))) ->
    (forall f, In f (c_fields d) -> read f = true -> bear P W (val f) (f_type f) = true) ->
    let attrs := map (fun f => (f_name f, val f)) (c_fields d) in
    c_post d (VObj (c_id d) attrs) = Ok (VObj (c_id d) attrs) ->
    construct P W d (map val (fst (pk false (c_fields d)))) (map (fun f => (f_name f, val f)) (snd (pk false (c_fields d)))) = Ok (VObj (c_id d) attrs).
  Proof.
    intros ND HD HB attrs HP. unfold construct, positional. destruct (pk_prefix (c_fields d)) as [q Hq]. rewrite Hq, bind_pos_prefix.
    set (given := map (fun f => (f_name f, val f)) (fst (pk false (c_fields d))) ++ map (fun f => (f_name f, val f)) (snd (pk false (c_fields d)))).
    assert (UN : forall f g, In f (c_fields d) -> In g (c_fields d) -> f_name f = f_name g -> f = g).
    { clear -ND. induction (c_fields d); [contradiction|]. inversion ND; subst. intros f g [<-|Hf] [<-|Hg] E; auto.
      - exfalso. apply H1. rewrite E. now apply in_map.
      - exfalso. apply H1. rewrite <- E. now apply in_map. }
    assert (GV : forall f, In f (c_fields d) -> slookup (f_name f) given = if read f then Some (val f) else None).
    { intros f Hf. destruct (slookup (f_name f) given) as [v|] eqn:L.
      - apply slookup_In in L. unfold given in L. rewrite <- map_app in L. apply in_map_iff in L as [g [E Hg]]. apply in_app_iff in Hg.
        apply pk_In in Hg as [Hg R]. injection E as E <-. apply UN in E; auto. subst. now rewrite R.
      - destruct (read f) eqn:R; [|reflexivity]. apply slookup_None in L. exfalso. apply L. unfold given. rewrite <- map_app, map_map.
        apply in_map_iff. exists f. split; [reflexivity|]. apply in_app_iff. now apply pk_In. }
    assert (AO : args_ok P W d given = true).
    { apply forallb_forall. intros f Hf. rewrite (GV f Hf). destruct (read f) eqn:R; auto. }
    rewrite AO. cbn [negb]. rewrite andb_false_r.
    assert (NDA : no_dup_args d (map (fun f => (f_name f, val f)) (fst (pk false (c_fields d)))) (map (fun f => (f_name f, val f)) (snd (pk false (c_fields d)))) = true).
    { apply forallb_forall. intros kv Hkv. apply in_map_iff in Hkv as [g [<- Hg]]. cbn [fst].
      apply andb_true_intro. split.
      - apply negb_true_iff. apply not_true_is_false. intros E. apply existsb_exists in E as [pv [Hpv E]].
        apply in_map_iff in Hpv as [f [<- Hf]]. cbn [fst] in E. apply String.eqb_eq in E. revert E. eapply pk_disjoint; eauto.
      - apply existsb_exists. exists g. assert (Hg' : In g (c_fields d) /\ read g = true) by (apply (pk_In false); now right).
        destruct Hg' as [Hg1 R]. split; [assumption|]. rewrite String.eqb_refl. unfold read in R. now destruct (f_init g). }
    rewrite NDA.
    assert (IF : init_fields d given = Ok attrs).
    { unfold init_fields. rewrite (mapM_all_Ok _ (fun f => [(f_name f, val f)])).
      - cbn [bind]. unfold attrs. f_equal. clear. induction (c_fields d); simpl; congruence.
      - intros f Hf. rewrite (GV f Hf). destruct (read f) eqn:R.
        + assert (I : f_init f = true) by (unfold read in R; now destruct (f_init f)). now rewrite I.
        + change (default_value f) with (dflt f). rewrite (HD f Hf R). destruct (f_init f); reflexivity. }
    rewrite IF. cbn [bind]. exact HP.
  Qed.

  (** ** Classes *)
  Definition DeGood (v : pyval) (t : pytype) : Prop :=
    forall d nm co x, tyok P W (c_tagging d) co t -> Cov P d t -> scope_ok P d -> ACC nm (c_tagging d) v t x ->
    forall cfg a e, de_plain cfg nm co -> arg_ok P W d a t -> de_ty P W cfg a t = Ok e ->
    ev (fun n => forall mg mgtv vta rho, present (run n) (ctxof d mg mgtv vta) rho a x ->
          eval P W (run n) (ctxof d mg mgtv vta) rho e = Ok v).

  Lemma frag_scope d : frag_class P W d -> scope_ok P d.
  Proof. intros (_ & _ & _ & _ & _ & _ & _ & _ & _ & _ & N & U & L & _). repeat split; assumption. Qed.

  Lemma frag_defields d : frag_class P W d -> defields d = Ok (c_fields d).
  Proof.
    intros F. pose proof (frag_sefields P W d F _ eq_refl) as E. unfold sefields in E. inv_bind E. cbn [app] in E.
    rewrite app_nil_r in E. injection E as ->. unfold defields.
    rewrite <- (map_id (c_fields d)) at 2. apply mapM_all_Ok. intros f Hf.
    apply mapM_Ok in Hb. destruct (Forall2_in_l _ _ _ _ Hb Hf) as [b [_ B]]. inv_bind B. inv_bind B. rewrite Hb0. cbn [bind]. rewrite Hb1. reflexivity.
  Qed.

  Lemma de_cfg_plain d nm : frag_class P W d -> de_plain (de_cfg d nm) nm (coerces d).
  Proof.
    intros (_ & H1 & _ & H2 & _). unfold de_plain, de_cfg. cbn. rewrite H1, H2. repeat split.
    unfold coerces. destruct (c_check d); congruence.
  Qed.
  Lemma de_render_plain cfg nm co a t : de_plain cfg nm co -> de_render P W cfg a t = de_ty P W cfg a t.
  Proof. intros [_ [H _]]. unfold de_render. now rewrite H. Qed.

  Lemma field_arg_ok c d f i var : get_class P c = Some d -> frag_class P W d -> In f (c_fields d) -> f_flatten f = false -> f_deserializer f = None ->
    arg_ok P W d (field_arg d f i false (c_rename_all d) var) (f_type f).
  Proof.
    intros Hc F Hf E3 E2. destruct F as (_ & _ & _ & _ & _ & _ & F & _). rewrite Forall_forall in F.
    destruct (F f Hf) as [(_ & _ & _ & _ & [k [E9 E9']] & E10 & E11 & _) _].
    unfold arg_ok, field_arg. cbn. rewrite E2, E3.
    repeat split; auto; try discriminate.
    - destruct E11 as [->|[E _]]; auto.
    - intros p d' [= <-] H. pose proof (get_class_self P _ _ Hc). congruence.
    - intros _ _. exists k. unfold da_key. cbn. rewrite (wire_conv W d f k E10 E9). cbn [bind]. unfold lit. rewrite E9'. split; [reflexivity|].
      destruct E11 as [->|[_ [E E']]]; [now left|right]. split; [congruence|assumption].
  Qed.
  Lemma field_arg_iter_ok c d f i case var : get_class P c = Some d -> frag_class P W d -> In f (c_fields d) -> f_alias f = [] -> f_flatten f = false -> f_deserializer f = None ->
    arg_ok P W d (field_arg d f i true case var) (f_type f).
  Proof.
    intros Hc F Hf NA E3 E2.
    unfold arg_ok, field_arg. cbn. rewrite E2, E3, NA.
    repeat split; auto; try discriminate.
    intros p d' [= <-] H. pose proof (get_class_self P _ _ Hc). congruence.
  Qed.

  Definition rendd (d : classdef) (i : nat) (f : fielddef) : res dstmt :=
    pv <- match flat_child f with
          | Some c =>
            match get_class P c with
            | None => Raise XAttr
            | Some d' =>
              ck <- known_fields P W (class_fuel P) d' ;;
              Ok (Some (mkProj ck (all_keys P W d) (has_flat P (class_fuel P) d') false), EVar (flat_var (f_name f)))
            end
          | None => Ok (None, data_var)
          end ;;
    e <- de_ty P W (de_cfg d true) (field_arg d f i false (c_rename_all d) (snd pv)) (f_type f) ;;
    if has_some (f_default f) then Ok (DsField (f_name f) (fst pv) e None)
    else k <- da_key W (field_arg d f i false (c_rename_all d) (snd pv)) ;; Ok (DsField (f_name f) (fst pv) e (Some k)).

  Definition runs_to (d : classdef) (data v : pyval) (f : fielddef) (n : nat) (s : dstmt) : Prop :=
    forall mg mgtv vta ex vals,
      run_dstmt P W (run n) (ctxof d mg mgtv vta) data ex vals s = Ok (vals ++ [(f_name f, v)]).

  Lemma default_of_ok d f v mg mgtv vta : NoDup (map f_name (c_fields d)) -> In f (c_fields d) -> dflt f = Some (Ok v) ->
    default_of (ctxof d mg mgtv vta) (f_name f) = Ok v.
  Proof.
    intros ND Hf Hv. unfold default_of. cbn [x_cls de_ctx].
    assert (E : find (fun fd => String.eqb (f_name fd) (f_name f)) (c_fields d) = Some f).
    { revert ND Hf. clear. induction (c_fields d) as [|g l IH]; [contradiction|]. intros ND Hf. inversion ND; subst. cbn [find].
      destruct (String.eqb_spec (f_name g) (f_name f)) as [E|E].
      - destruct Hf as [->|Hf]; [reflexivity|]. exfalso. apply H1. rewrite E. now apply in_map.
      - destruct Hf as [->|Hf]; [congruence|]. auto. }
    rewrite E. change (default_value f) with (dflt f). now rewrite Hv.
  Qed.

  (** Fields with a deserializer of their own *)
  Lemma de_fn_lookup d f h : NoDup (map f_name (c_fields d)) -> In f (c_fields d) -> f_deserializer f = Some (FFun h) ->
    slookup (mangle (f_name f) "deserializer") (rev (de_fns d)) = Some (GFun h).
  Proof.
    intros ND Hf FD. apply slookup_functional.
    - rewrite <- in_rev. unfold de_fns. apply in_concat. exists [(mangle (f_name f) "deserializer", GFun h)]. split; [|now left].
      apply in_map_iff. exists f. rewrite FD. auto.
    - intros b Hb. rewrite <- in_rev in Hb. unfold de_fns in Hb. apply in_concat in Hb as [l [Hl Hb]]. apply in_map_iff in Hl as [f' [<- Hf']].
      assert (N : f_name f' = f_name f).
      { assert (MI : forall x y, mangle x "deserializer" = mangle y "deserializer" -> x = y).
        { intros x y E. unfold mangle in E. apply (f_equal list_ascii_of_string) in E. rewrite !list_ascii_app in E. apply app_inv_tail in E. now apply list_ascii_inj. }
        destruct (f_deserializer f') as [[|g']|]; [| |destruct Hb]; (destruct Hb as [Hb|[]]; injection Hb as E _; now apply MI). }
      assert (f' = f) by (eapply same_field; eauto). subst f'. rewrite FD in Hb. destruct Hb as [Hb|[]]. congruence.
  Qed.

  Lemma de_ty_fn cfg a t fn : da_deser a = Some (Some fn) -> de_ty P W cfg a t = (dat <- da_data W a t ;; de_default P W a t (EFn fn dat)).
  Proof. intros E. destruct t; unfold de_ty; rewrite E; (destruct (find_de P (d_class_de cfg) _); reflexivity). Qed.

  Lemma unpaired d f : frag_class P W d -> In f (c_fields d) -> f_serializer f = None -> f_deserializer f = None.
  Proof.
    intros (_ & _ & _ & _ & _ & _ & FF & _) Hf E. rewrite Forall_forall in FF. destruct (FF f Hf) as [([[_ N]|[g [h [G _]]]] & _) _]; [exact N|congruence].
  Qed.
  Lemma decoded_plain d f h : frag_class P W d -> In f (c_fields d) -> f_deserializer f = Some (FFun h) ->
    f_alias f = [] /\ f_flatten f = false.
  Proof.
    intros (_ & _ & _ & _ & _ & _ & FF & _) Hf E. rewrite Forall_forall in FF.
    destruct (FF f Hf) as [([[_ N]|[g [h' [G _]]]] & X & _) _]; [congruence|]. apply X. congruence.
  Qed.
  Lemma de_alone d f : frag_class P W d -> In f (c_fields d) -> f_deserializer f = None \/ exists h, f_deserializer f = Some (FFun h).
  Proof.
    intros (_ & _ & _ & _ & _ & _ & FF & _) Hf. rewrite Forall_forall in FF. destruct (FF f Hf) as [([[_ N]|[g [h [_ N]]]] & _) _]; eauto.
  Qed.

  Lemma coded_runs c d f kvs v h : get_class P c = Some d -> frag_class P W d -> In f (c_fields d) -> read f = true ->
    f_deserializer f = Some (FFun h) ->
    (exists x, first_key P kvs (key_names W d f) = Some x /\ h x = Ok v) \/
    first_key P kvs (key_names W d f) = None /\ absent_ok f v ->
    forall i, exists s, rendd d i f = Ok s /\ ev (fun n => runs_to d (VMap MDict kvs) v f n s).
  Proof.
    intros Hc F Hf R FD H i. destruct (decoded_plain d f h F Hf FD) as [AL E3].
    pose proof F as (_ & _ & _ & _ & _ & ND & FF & _). rewrite Forall_forall in FF.
    destruct (FF f Hf) as [(_ & _ & _ & _ & [k [E9 E9']] & E10 & _ & _) _].
    set (a := field_arg d f i false (c_rename_all d) data_var).
    assert (Hk : da_key W a = Ok k).
    { unfold da_key, a. cbn. rewrite (wire_conv W d f k E10 E9). cbn [bind]. unfold lit. now rewrite E9'. }
    assert (KN : key_names W d f = [k]) by (unfold key_names; now rewrite E9, AL). rewrite KN in H. cbn [first_key] in H.
    set (dat := if has_none_arg (f_type f) then EGet data_var k else EKey data_var k).
    set (code := EFn (mangle (f_name f) "deserializer") dat).
    assert (He : de_ty P W (de_cfg d true) a (f_type f) = Ok (if has_some (f_default f) then EIf (EIn k data_var) code (EDefault (f_name f)) else code)).
    { rewrite (de_ty_fn _ a _ (mangle (f_name f) "deserializer")) by (unfold a; cbn; now rewrite FD).
      assert (DA : da_data W a (f_type f) = Ok dat).
      { unfold da_data. cbn [a field_arg da_inner da_iter]. rewrite Hk. reflexivity. }
      rewrite DA. cbn [bind]. fold code. unfold de_default. cbn [a field_arg da_default da_iter da_flatten da_alias da_var da_name].
      rewrite E3, AL. fold a. rewrite Hk. destruct (has_some (f_default f)); reflexivity. }
    assert (EC : forall n mg mgtv vta x, skey P kvs k = Some x -> h x = Ok v -> eval P W (run n) (ctxof d mg mgtv vta) [("data", VMap MDict kvs)] code = Ok v).
    { intros n mg mgtv vta x S Hx. unfold code. cbn [eval]. unfold fn_lookup. cbn [de_ctx x_fns]. rewrite (de_fn_lookup d f h ND Hf FD).
      assert (ED : eval P W (run n) (ctxof d mg mgtv vta) [("data", VMap MDict kvs)] dat = Ok x).
      { unfold dat. destruct (has_none_arg (f_type f)); cbn [eval data_var slookup]; cbn; unfold skey in S; rewrite S; reflexivity. }
      rewrite ED. exact Hx. }
    assert (EI : forall n mg mgtv vta, eval P W (run n) (ctxof d mg mgtv vta) [("data", VMap MDict kvs)] (EIn k data_var) = Ok (VBool (has_some (skey P kvs k)))).
    { intros. unfold data_var. cbn [eval slookup String.eqb Ascii.eqb Bool.eqb of_option bind]. now rewrite py_in_map. }
    assert (G : forall n mg mgtv vta, eval P W (run n) (ctxof d mg mgtv vta) [("data", VMap MDict kvs)]
        (if has_some (f_default f) then EIf (EIn k data_var) code (EDefault (f_name f)) else code) = Ok v).
    { intros n mg mgtv vta. specialize (EI n mg mgtv vta). destruct H as [[x [H1 H2]]|[H1 H2]].
      - assert (S : skey P kvs k = Some x) by (destruct (skey P kvs k); congruence). specialize (EC n mg mgtv vta x S H2).
        destruct (has_some (f_default f)); [|exact EC]. rewrite S in EI.
        change (eval P W (run n) (ctxof d mg mgtv vta) [("data", VMap MDict kvs)] (EIf (EIn k data_var) code (EDefault (f_name f)))) with
          (u <- eval P W (run n) (ctxof d mg mgtv vta) [("data", VMap MDict kvs)] (EIn k data_var) ;;
           if truthy (enum_scalar P) u then eval P W (run n) (ctxof d mg mgtv vta) [("data", VMap MDict kvs)] code
           else eval P W (run n) (ctxof d mg mgtv vta) [("data", VMap MDict kvs)] (EDefault (f_name f))).
        rewrite EI. exact EC.
      - assert (S : skey P kvs k = None) by (destruct (skey P kvs k); congruence). unfold absent_ok in H2. rewrite S in EI.
        destruct (dflt f) as [dv|] eqn:Ed; [|destruct H2 as (_ & _ & H2); congruence]. subst dv.
        assert (HS : has_some (f_default f) = true) by (unfold dflt in Ed; now destruct (f_default f)). rewrite HS.
        change (eval P W (run n) (ctxof d mg mgtv vta) [("data", VMap MDict kvs)] (EIf (EIn k data_var) code (EDefault (f_name f)))) with
          (u <- eval P W (run n) (ctxof d mg mgtv vta) [("data", VMap MDict kvs)] (EIn k data_var) ;;
           if truthy (enum_scalar P) u then eval P W (run n) (ctxof d mg mgtv vta) [("data", VMap MDict kvs)] code
           else eval P W (run n) (ctxof d mg mgtv vta) [("data", VMap MDict kvs)] (EDefault (f_name f))).
        rewrite EI. cbn [bind has_some truthy]. cbn [eval]. now apply default_of_ok. }
    unfold rendd, flat_child. rewrite E3. cbn [andb bind fst snd]. fold a. rewrite He, Hk. cbn [bind].
    destruct (has_some (f_default f)); (eexists; split; [reflexivity|]; apply ev_always; intros n mg mgtv vta ex vals;
      specialize (G n mg mgtv vta); cbn [run_dstmt bind]; rewrite G; reflexivity).
  Qed.

  Lemma field_runs c d f kvs v : get_class P c = Some d -> frag_class P W d -> In f (c_fields d) -> read f = true -> f_flatten f = false ->
    (forall t, DeGood v t) ->
    (exists x, first_key P kvs (key_names W d f) = Some x /\ FACC true d f v x) \/
    first_key P kvs (key_names W d f) = None /\ absent_ok f v ->
    forall i, exists s, rendd d i f = Ok s /\ ev (fun n => runs_to d (VMap MDict kvs) v f n s).
  Proof.
    intros Hc F Hf R E3 IH H i. destruct (de_alone d f F Hf) as [E2|[h Eh]].
    2:{ apply (coded_runs c d f kvs v h); auto. destruct H as [[x [H1 [[H2 _]|[[h' [H2 H3]] _]]]]|H]; [congruence| |auto].
      rewrite Eh in H2. injection H2 as <-. left. eauto. }
    assert (H' : (exists x, first_key P kvs (key_names W d f) = Some x /\ ACC true (c_tagging d) v (f_type f) x) \/
      first_key P kvs (key_names W d f) = None /\ absent_ok f v).
    { destruct H as [[x [H1 [[_ H2]|[[h' [H2 H3]] _]]]]|H]; [eauto|congruence|auto]. }
    clear H. rename H' into H. pose proof (field_arg_ok c d f i data_var Hc F Hf E3 E2) as HA.
    pose proof F as (_ & _ & _ & _ & _ & ND & FF & _). rewrite Forall_forall in FF.
    destruct (FF f Hf) as [(_ & _ & _ & TY & [k [E9 E9']] & E10 & E11 & _) _].
    rewrite R, orb_true_r in TY. specialize (TY eq_refl).
    assert (Sk : f_skip f = false) by (unfold read in R; destruct (f_init f), (f_skip f); auto; discriminate).
    pose proof (Cov_field P W _ _ d f Hf Sk TY) as CV.
    destruct (de_ty_total P W NoDes d _ (coerces d) (de_cfg d true) true (f_type f) (de_cfg_plain d true F) TY _ HA) as [e He].
    set (a := field_arg d f i false (c_rename_all d) data_var) in *.
    assert (Hk : da_key W a = Ok k).
    { unfold da_key, a. cbn. rewrite (wire_conv W d f k E10 E9). cbn [bind]. unfold lit. now rewrite E9'. }
    assert (G : ev (fun n => forall mg mgtv vta, eval P W (run n) (ctxof d mg mgtv vta) [("data", VMap MDict kvs)] e = Ok v)).
    { unfold key_names in H. rewrite E9 in H. destruct H as [[x [H1 H2]]|[H1 H2]].
      - eapply ev_mono; [exact (IH (f_type f) d true (coerces d) x TY CV (frag_scope d F) H2 _ a e (de_cfg_plain d true F) HA He)|].
        cbv beta. intros n Hn mg mgtv vta. apply Hn. unfold present, a. cbn. exists MDict, kvs, k. split; [reflexivity|]. split; [exact Hk|].
        destruct E11 as [EA|[_ [E _]]].
        + left. rewrite EA in H1 |- *. split; [reflexivity|]. cbn [first_key] in H1. destruct (skey P kvs k); congruence.
        + right. split; [congruence|]. split; [reflexivity|exact H1].
      - unfold absent_ok in H2. destruct (dflt f) eqn:Ed.
        + subst r. rewrite (de_ty_core P W NoDes (de_cfg d true) true (coerces d)) in He.
          * inv_bind He. apply ev_always. intros n mg mgtv vta.
            eapply (absent_default (run n) (ctxof d mg mgtv vta) _ d a (f_type f) a0 e MDict kvs k v); eauto.
            -- unfold a. cbn. unfold dflt in Ed. now destruct (f_default f).
            -- unfold a; cbn. now apply default_of_ok.
          * now apply de_cfg_plain.
          * unfold a. cbn. now rewrite E2.
          * exact E3.
          * intros c0 l E; rewrite E in TY; exact TY.
          * intros c0 E; rewrite E in TY; exact TY.
        + destruct H2 as (H2 & -> & _).
          eapply ev_mono; [eapply (absent_null d _ (coerces d) (de_cfg d true) true (frag_scope d F) (de_cfg_plain d true F) eq_refl (f_type f) a e k); eauto|].
          * unfold a; cbn. unfold dflt in Ed. destruct (f_default f) as [[]|]; [discriminate|discriminate|reflexivity].
          * cbv beta. intros n Hn mg mgtv vta. apply (Hn mg mgtv vta _ MDict kvs); auto. }
    unfold rendd, flat_child. rewrite E3. cbn [andb bind fst snd]. fold a. rewrite He, Hk. cbn [bind].
    exists (DsField (f_name f) None e (if has_some (f_default f) then None else Some k)).
    split; [destruct (has_some (f_default f)); reflexivity|].
    eapply ev_mono; [exact G|]. cbv beta. intros n Hn mg mgtv vta ex vals. cbn [run_dstmt bind].
    destruct (has_some (f_default f)); cbn [run_dstmt bind]; rewrite Hn; reflexivity.
  Qed.

  Lemma stmts_run d data val : forall fs i,
    (forall f, In f fs -> forall i, exists s, rendd d i f = Ok s /\ ev (fun n => runs_to d data (val f) f n s)) ->
    exists l, mapMi_from (rendd d) i fs = Ok l /\
      ev (fun n => forall mg mgtv vta ex vals,
        foldM (run_dstmt P W (run n) (ctxof d mg mgtv vta) data ex) l vals = Ok (vals ++ map (fun f => (f_name f, val f)) fs)).
  Proof.
    induction fs as [|f fs IH]; intros i H.
    - exists []. split; [reflexivity|]. apply ev_always. intros. cbn. now rewrite app_nil_r.
    - destruct (H f (or_introl eq_refl) i) as [s [S1 S2]]. destruct (IH (S i)) as [l [L1 L2]]; [intros; apply H; now right|].
      exists (s :: l). cbn [mapMi_from]. rewrite S1. cbn [bind]. rewrite L1. split; [reflexivity|].
      eapply ev_mono; [exact (ev_and _ _ S2 L2)|]. cbv beta. intros n [N1 N2] mg mgtv vta ex vals. cbn [foldM]. rewrite N1. cbn [bind].
      rewrite N2. cbn [map]. now rewrite <- app_assoc.
  Qed.

  Lemma kid_known d d' n : Forall (kid_field_ok P W d d') (c_fields d') -> c_transparent d' = false ->
    known_fields P W n d' = Ok (all_keys P W d') /\ has_flat P n d' = false.
  Proof.
    intros FF T. rewrite Forall_forall in FF.
    assert (E : forall g, mapM (fun f => if is_flat_dict_field f then Ok [] else match flat_child f with
        | Some c => g c | None => k <- conv W (c_rename_all d') (f_name f) (f_rename f) ;; Ok (k :: f_alias f) end) (c_fields d')
        = Ok (map (entry_keys P W d') (c_fields d'))).
    { intros g. apply mapM_all_Ok. intros f Hf. destruct (FF f Hf) as ((_ & _ & _ & _ & [k [E9 E9']] & E10 & _) & E3 & _).
      unfold is_flat_dict_field, flat_child, entry_keys, kid. rewrite E3. cbn [andb]. rewrite (wire_conv W d' f k E10 E9). cbn [bind]. unfold key_names. now rewrite E9. }
    split; [destruct n; cbn [known_fields]; rewrite T, E; reflexivity|].
    assert (X : forall p, (forall f, In f (c_fields d') -> p f = false) -> existsb p (c_fields d') = false).
    { intros p H. apply not_true_is_false. intros Z. apply existsb_exists in Z as [f [Hf Z]]. rewrite H in Z; [discriminate|exact Hf]. }
    destruct n; cbn [has_flat]; rewrite T; apply X; intros f Hf; destruct (FF f Hf) as (_ & E3 & _);
      unfold is_flat_dict_field, flat_child; rewrite E3; cbn [andb orb]; apply andb_false_r.
  Qed.

  Lemma frag_flat d f : frag_class P W d -> In f (c_fields d) -> f_flatten f = true -> flat_ok P W d f.
  Proof. intros (_ & _ & _ & _ & _ & _ & FF & _) Hf. rewrite Forall_forall in FF. now destruct (FF f Hf) as [_ H]. Qed.

  Lemma known_plain d n : frag_class P W d -> c_transparent d = false -> 0 < n -> known_fields P W n d = Ok (all_keys P W d).
  Proof.
    intros F T Hn. pose proof F as (_ & _ & _ & _ & _ & _ & FF & _). rewrite Forall_forall in FF.
    destruct n as [|n]; [lia|]. cbn [known_fields]. rewrite T.
    match goal with |- bind ?m _ = _ => assert (E : m = Ok (map (entry_keys P W d) (c_fields d))) end.
    { apply mapM_all_Ok. intros f Hf. destruct (FF f Hf) as [(_ & _ & _ & _ & [k [E9 E9']] & E10 & _) E3].
      unfold is_flat_dict_field, flat_child, entry_keys, kid. destruct (f_flatten f); cbn [andb].
      - destruct (E3 eq_refl) as (c & d' & -> & Hd' & _ & _ & _ & _ & T' & _ & _ & _ & _ & FK & _). cbn [is_flatten_dict negb]. rewrite Hd'.
        destruct (kid_known d d' n FK T') as [-> _]. f_equal. unfold all_keys. f_equal. apply map_ext_in. intros g Hg.
        rewrite Forall_forall in FK. destruct (FK g Hg) as (_ & E & _). unfold entry_keys, kid. now rewrite E.
      - rewrite (wire_conv W d f k E10 E9). cbn [bind]. unfold key_names. now rewrite E9. }
    rewrite E. reflexivity.
  Qed.

  (** A flattened object is read from the entries meant for it. *)
  Lemma flat_runs c d f d' kvs v : get_class P c = Some d -> frag_class P W d -> In f (c_fields d) -> read f = true ->
    kid P f = Some d' -> (forall c, ClassGood v c) -> ACC true (c_tagging d) v (f_type f) (VMap MDict (kid_data P W d d' kvs)) ->
    forall i, exists s, rendd d i f = Ok s /\ ev (fun n => runs_to d (VMap MDict kvs) v f n s).
  Proof.
    intros Hc F Hf R EK IH HA i. apply kid_get in EK as [Fl [c' [T Hd']]].
    destruct (frag_flat d f F Hf Fl) as (c0 & d0 & T0 & Hd0 & Ne & Wf & _ & Df & T' & _ & _ & _ & _ & FK & _).
    assert (c0 = c') by congruence. subst c0. assert (d0 = d') by congruence. subst d0. clear T0 Hd0.
    pose proof F as (_ & _ & _ & _ & _ & _ & FF & _). rewrite Forall_forall in FF.
    destruct (FF f Hf) as [(_ & E20 & _ & TY & [k [E9 E9']] & E10 & _) _].
    assert (E2 : f_deserializer f = None).
    { destruct (de_alone d f F Hf) as [E2|[h Eh]]; [exact E2|]. destruct (decoded_plain d f h F Hf Eh). congruence. }
    destruct (kid_known d d' (class_fuel P) FK T') as [CK HFl].
    unfold rendd, flat_child. rewrite Fl, T. cbn [is_flatten_dict andb negb]. rewrite Hd', CK, HFl. cbn [bind fst snd].
    set (a := field_arg d f i false (c_rename_all d) (EVar (flat_var (f_name f)))).
    assert (Hk : da_key W a = Ok k).
    { unfold da_key, a. cbn. rewrite (wire_conv W d f k E10 E9). cbn [bind]. unfold lit. now rewrite E9'. }
    assert (He : de_ty P W (de_cfg d true) a (TClass c') = Ok (EDeFn (DtName (TClass c')) (EVar (flat_var (f_name f))) true None)).
    { destruct (de_cfg_plain d true F) as [_ [_ [DC _]]]. unfold de_ty. rewrite (find_de_none P NoDes _ _ DC). unfold a. cbn [field_arg da_deser]. rewrite E2.
      unfold de_class. cbn [field_arg da_flatten da_iter da_var da_parent da_targs bind]. rewrite Fl. cbn [bind].
      rewrite (proj2 (String.eqb_neq _ _)) by congruence. unfold de_default. cbn [field_arg da_default]. rewrite Df. reflexivity. }
    rewrite He, Df. cbn [bind has_some]. rewrite Hk. cbn [bind]. eexists. split; [reflexivity|].
    rewrite T in HA. specialize (IH c' d' true _ _ Hd' HA).
    assert (Sk : f_skip f = false) by (unfold written in Wf; now destruct (f_skip f)).
    assert (L : forall mg mgtv vta, resolve P (x_g (ctxof d mg mgtv vta)) (TClass c') = Ok (TClass c')).
    { intros. apply de_lookup; [apply (frag_scope d F)|reflexivity|]. eapply iter_types_field; eauto. rewrite T. constructor. }
    eapply ev_mono; [exact IH|]. cbv beta. intros n Hn mg mgtv vta ex vals.
    assert (PJ : project_flat P (mkProj (all_keys P W d') (all_keys P W d) false false) (VMap MDict kvs) = Ok (VMap MDict (kid_data P W d d' kvs))).
    { unfold project_flat. destruct kvs as [|kv kvs]; reflexivity. }
    cbn [run_dstmt]. rewrite PJ. cbn [bind eval]. rewrite L. cbn [bind]. rewrite Hd'. cbn [of_option bind slookup]. rewrite String.eqb_refl. cbn [of_option bind].
    cbn [x_reuse x_dn x_mg x_mgtv de_ctx]. rewrite Hn by reflexivity. reflexivity.
  Qed.

  Lemma ctor_runs d val vals mg mgtv vta : frag_class P W d ->
    (forall f, In f (c_fields d) -> read f = true -> slookup (f_name f) vals = Some (val f)) ->
    (forall f, In f (c_fields d) -> read f = false -> dflt f = Some (Ok (val f))) ->
    (forall f, In f (c_fields d) -> read f = true -> bear P W (val f) (f_type f) = true) ->
    let attrs := map (fun f => (f_name f, val f)) (c_fields d) in
    c_post d (VObj (c_id d) attrs) = Ok (VObj (c_id d) attrs) ->
    run_ctor P W (ctxof d mg mgtv vta) vals (force_kw false (c_fields d)) = Ok (VObj (c_id d) attrs).
  Proof.
    intros F H1 H2 H3 attrs H4. unfold run_ctor. rewrite (split_pk vals val) by assumption. cbn [x_cls de_ctx]. unfold construct_user.
    rewrite construct_ok; auto. apply F.
  Qed.

  Lemma filter_ext_in' {A} (p q : A -> bool) l : (forall a, p a = q a) -> filter p l = filter q l.
  Proof. intros H. induction l; [reflexivity|]. cbn [filter]. now rewrite H, IHl. Qed.

  Lemma acc_obj nm tg c attrs x : ACC nm tg (VObj c attrs) (TClass c) x -> exists d,
    get_class P c = Some d /\ frag_class P W d /\ c_post d (VObj c attrs) = Ok (VObj c attrs) /\
    ((nm = true /\ c_transparent d = false /\ exists kvs, x = VMap MDict kvs /\
      (c_deny d = true -> forall kv, In kv kvs ->
           exists f k, In f (c_fields d) /\ In k (entry_keys P W d f) /\ eqv P (VStr k) (fst kv) = true) /\
      Forall2 (fun f nv =>
          fst nv = f_name f /\
          (read f = false /\ dflt f = Some (Ok (snd nv)) \/
           read f = true /\
           ((f_flatten f = false /\ exists x, first_key P kvs (key_names W d f) = Some x /\ FACC true d f (snd nv) x) \/
            (f_flatten f = false /\ first_key P kvs (key_names W d f) = None /\ absent_ok f (snd nv) /\ bear P W (snd nv) (f_type f) = true) \/
            (f_flatten f = true /\ exists d', kid P f = Some d' /\
               ACC true (c_tagging d) (snd nv) (f_type f) (VMap MDict (kid_data P W d d' kvs))))))
          (c_fields d) attrs) \/
     (nm = false /\ c_transparent d = false /\ tuple_class d /\ exists s l, x = VSeq s l /\ (s = KList \/ s = KTuple) /\
      Forall3 (fun f nv x => fst nv = f_name f /\ FACC false d f (snd nv) x) (c_fields d) attrs l) \/
     (c_transparent d = true /\ (nm = false -> tuple_class d) /\ exists f v, c_fields d = [f] /\ attrs = [(f_name f, v)] /\
      ACC nm (c_tagging d) v (f_type f) x)).
  Proof.
    intros H; inversion H; subst; eexists; (split; [eassumption|]; split; [eassumption|]; split; [eassumption|]).
    - left. eauto 8.
    - right. left. eauto 10.
    - right. right. eauto 10.
  Qed.

  Lemma tuple_read d f : tuple_class d -> In f (c_fields d) -> written f = true /\ read f = true /\ f_kw_only f = false /\ f_alias f = [] /\ f_flatten f = false.
  Proof. intros H Hf. unfold tuple_class in H. rewrite Forall_forall in H. now apply H. Qed.

  Lemma tuple_force l : Forall (fun f => written f = true /\ read f = true /\ f_kw_only f = false /\ f_alias f = [] /\ f_flatten f = false) l ->
    filter renderable l = l /\ force_kw false l = map (fun f => (f_name f, false)) l.
  Proof.
    induction 1 as [|f l [_ [R [Kw _]]] _ [IH1 IH2]]; [auto|]. cbn [filter force_kw map]. rewrite renderable_read, R, Kw, IH1, IH2. auto.
  Qed.

  Lemma iter_run d attrs s : forall fs nvs l l0,
    s = KList \/ s = KTuple ->
    (forall f, In f fs -> forall i, exists e,
       de_ty P W (de_cfg d false) (field_arg d f i true None data_var) (f_type f) = Ok e /\
       forall x, FACC false d f (val_of attrs f) x ->
       ev (fun n => forall mg mgtv vta rho, eval P W (run n) (ctxof d mg mgtv vta) rho (EIdx data_var i) = Ok x ->
            eval P W (run n) (ctxof d mg mgtv vta) rho e = Ok (val_of attrs f))) ->
    Forall3 (fun f nv x => fst nv = f_name f /\ nv = (f_name f, val_of attrs f) /\ FACC false d f (snd nv) x) fs nvs l ->
    exists es, mapMi_from (fun i f => e <- de_ty P W (de_cfg d false) (field_arg d f i true None data_var) (f_type f) ;; Ok (f_name f, e)) (List.length l0) fs = Ok es /\
      ev (fun n => forall mg mgtv vta,
        mapM (fun xe => v <- eval P W (run n) (ctxof d mg mgtv vta) [("data", VSeq s (l0 ++ l))] (snd xe) ;; Ok (fst xe, v)) es
        = Ok (map (fun f => (f_name f, val_of attrs f)) fs)).
  Proof.
    intros fs nvs l l0 Hs IH F. revert l0 IH. induction F as [|f nv x fs nvs l Hf F IHF]; intros l0 IH.
    - exists []. split; [reflexivity|]. apply ev_always. reflexivity.
    - destruct (IH f (or_introl eq_refl) (List.length l0)) as [e [E1 E2]].
      destruct Hf as [_ [-> Hf]]. cbn [snd] in Hf. specialize (E2 x Hf).
      destruct (IHF (l0 ++ [x])) as [es [S1 S2]]; [intros; apply IH; now right|].
      rewrite app_length in S1. cbn [List.length] in S1. rewrite Nat.add_1_r in S1.
      exists ((f_name f, e) :: es). cbn [mapMi_from]. rewrite E1. cbn [bind]. rewrite S1. split; [reflexivity|].
      eapply ev_mono; [exact (ev_and _ _ E2 S2)|]. cbv beta. intros n [N1 N2] mg mgtv vta. cbn [mapM map fst snd].
      rewrite N1.
      + cbn [bind]. specialize (N2 mg mgtv vta). rewrite <- app_assoc in N2. cbn [app] in N2. rewrite N2. reflexivity.
      + cbn [eval data_var slookup]. cbn. rewrite nth_opt_app. destruct Hs as [-> | ->]; reflexivity.
  Qed.

  Lemma Forall3_Forall2_ab {A B C} (R : A -> B -> Prop) (R' : A -> B -> C -> Prop) la lb lc : Forall3 R' la lb lc -> (forall a b c, R' a b c -> R a b) -> Forall2 R la lb.
  Proof. induction 1; intros; constructor; eauto. Qed.

  Lemma de_obj c attrs : (forall nv, In nv attrs -> forall t, DeGood (snd nv) t) ->
    (forall nv, In nv attrs -> forall c, ClassGood (snd nv) c) -> ClassGood (VObj c attrs) c.
  Proof.
    intros IH IHC d nm tg x Hd A. pose proof A as A0. apply acc_obj in A as [d' [Hd' [F [HPost A]]]]. rewrite Hd in Hd'. injection Hd' as <-.
    pose proof F as (K1 & K2 & K3 & K4 & K5 & K6 & K7 & K8 & K9 & K10 & K11 & K12 & K13 & K14).
    pose proof (get_class_id P c d Hd) as ID.
    rewrite Forall_forall in K7.
    assert (FT : forall f, In f (c_fields d) -> read f = true -> tyok P W (c_tagging d) (coerces d) (f_type f)).
    { intros f Hf R. destruct (K7 f Hf) as [(_ & _ & _ & TY & _) _]. apply TY. now rewrite R, orb_true_r. }
    assert (FS : forall f, read f = true -> f_skip f = false).
    { intros f R. unfold read in R; destruct (f_init f), (f_skip f); auto; discriminate. }
    destruct A as [(-> & T & kvs & -> & Hdeny & FF)|[(-> & T & TC & s & l & -> & Hs & FF)|(T & TC & f & v & Hf & -> & HA)]].
    - destruct (attrs_map _ _ _ K6 FF) as [EA FA]. rewrite Forall_forall in FA. cbn [snd] in FA.
      assert (Hin : forall f, In f (c_fields d) -> In (f_name f, val_of attrs f) attrs) by (intros f Hf; rewrite EA at 2; apply in_map_iff; eauto).
      assert (RD : filter renderable (c_fields d) = filter read (c_fields d)) by (apply filter_ext_in', renderable_read).
      destruct (stmts_run d (VMap MDict kvs) (val_of attrs) (filter read (c_fields d)) 0) as [l [L1 L2]].
      { intros f Hf. apply filter_In in Hf as [Hf R]. intros i.
        destruct (FA f Hf) as [[X _]|[_ [[Fl X]|[[Fl [X1 [X2 _]]]|[Fl [d' [EK X]]]]]]]; [congruence| | |].
        - apply (field_runs c d f kvs (val_of attrs f) Hd F Hf R Fl (IH _ (Hin f Hf))). now left.
        - apply (field_runs c d f kvs (val_of attrs f) Hd F Hf R Fl (IH _ (Hin f Hf))). right. auto.
        - apply (flat_runs c d f d' kvs (val_of attrs f) Hd F Hf R EK (IHC _ (Hin f Hf)) X). }
      apply ev_S in L2. eapply ev_mono; [exact L2|]. cbv beta. intros [|n] Hn; [contradiction|]. intros mg mgtv vta ro Hro.
      rewrite run_S. cbn [step render_de].
      assert (RB : render_from_dict P W d = Ok (DbDict (if c_deny d then Some (all_keys P W d) else None) None l (force_kw false (c_fields d)))).
      { unfold render_from_dict. rewrite (frag_defields d F). cbn [bind]. rewrite T, RD, (known_plain d _ F T) by (unfold class_fuel; lia). cbn [bind].
        assert (NFD : forall f, In f (c_fields d) -> is_flat_dict_field f = false).
        { intros f Hf. unfold is_flat_dict_field. destruct (f_flatten f) eqn:Fl; [|reflexivity].
          destruct (frag_flat d f F Hf Fl) as (c0 & d0 & -> & _). reflexivity. }
        assert (EX : existsb is_flat_dict_field (filter read (c_fields d)) = false).
        { apply not_true_is_false. intros E. apply existsb_exists in E as [f [Hf E]]. apply filter_In in Hf as [Hf _].
          rewrite (NFD f Hf) in E. discriminate. }
        rewrite EX. cbn [negb]. rewrite andb_true_r, (check_sorted _ K10).
        assert (EM : forall g, (forall i f, In f (filter read (c_fields d)) -> g i f = rendd d i f) -> mapMi_from g 0 (filter read (c_fields d)) = Ok l).
        { rewrite <- L1. generalize 0. generalize (filter read (c_fields d)). induction l0; intros n0 g Hg; [reflexivity|].
          cbn [mapMi_from]. rewrite Hg by now left. rewrite IHl0; [reflexivity|]. intros; apply Hg; now right. }
        rewrite EM; [reflexivity|]. intros i f Hf. apply filter_In in Hf as [Hf _].
        rewrite (NFD f Hf). unfold rendd. match goal with |- bind ?m _ = _ => destruct m end; cbn [bind]; try reflexivity.
        rewrite (de_render_plain _ _ _ _ _ (de_cfg_plain d true F)). reflexivity. }
      rewrite RB. cbn [bind]. rewrite Hro. cbn [run_de_body].
      match goal with |- bind ?m _ = _ => assert (EM : m = Ok tt) end.
      { destruct (c_deny d); [|reflexivity]. unfold items_or_empty.
        assert (EI : (if truthy es (VMap MDict kvs) then items (VMap MDict kvs) else Ok []) = Ok kvs) by (destruct kvs; reflexivity).
        rewrite EI. cbn [bind].
        assert (EF : forallb (fun kv => key_in P (fst kv) (all_keys P W d)) kvs = true).
        { apply forallb_forall. intros kv Hkv. destruct (Hdeny eq_refl kv Hkv) as [f [k [D1 [D2 D3]]]].
          apply existsb_exists. exists k. split; [|exact D3]. apply in_concat. exists (entry_keys P W d f). split; [now apply in_map|exact D2]. }
        now rewrite EF. }
      rewrite EM. cbn [bind]. rewrite Hn. cbn [bind app].
      rewrite (ctor_runs d (val_of attrs)); auto.
      + now rewrite ID, <- EA.
      + intros f Hf R. apply slookup_NoDup.
        * rewrite map_map. cbn [fst]. clear -K6. induction (c_fields d); [constructor|]. inversion K6; subst. cbn [filter]. destruct (read a); [|auto].
          cbn [map]. constructor; [|auto]. intros X. apply H1. apply in_map_iff in X as [g [X1 X2]]. apply filter_In in X2 as [X2 _].
          rewrite <- X1. now apply in_map.
        * apply in_map_iff. exists f. split; [reflexivity|]. now apply filter_In.
      + intros f Hf R. destruct (FA f Hf) as [[_ X]|[X _]]; [exact X|congruence].
      + intros f Hf R. destruct (FA f Hf) as [[X _]|[_ [[_ [y [_ [[_ X]|[_ X]]]]]|[[_ [_ [_ X]]]|[_ [d' [_ X]]]]]]]; [congruence| |exact X|exact X|].
        all: eapply acc_bear; [apply le_n|now apply FT|exact X].
      + now rewrite ID, <- EA.
    - assert (FF2 : Forall2 (fun f nv => fst nv = f_name f /\ True) (c_fields d) attrs) by (eapply Forall3_Forall2_ab; [exact FF|]; cbv beta; intuition).
      destruct (attrs_map _ _ _ K6 FF2) as [EA _].
      assert (Hin : forall f, In f (c_fields d) -> In (f_name f, val_of attrs f) attrs) by (intros f Hf; rewrite EA at 2; apply in_map_iff; eauto).
      assert (FF3 : Forall3 (fun f nv x => fst nv = f_name f /\ nv = (f_name f, val_of attrs f) /\ FACC false d f (snd nv) x) (c_fields d) attrs l).
      { revert EA. generalize (val_of attrs). clear -FF. induction FF as [|f nv y fs nvs ys [N1 N2] FF3 IHF]; intros g E; constructor.
        - cbn [map] in E. injection E as E1 E2. auto.
        - cbn [map] in E. injection E as E1 E2. now apply IHF. }
      assert (IH' : forall f, In f (c_fields d) -> forall i, exists e,
         de_ty P W (de_cfg d false) (field_arg d f i true None data_var) (f_type f) = Ok e /\
         forall x, FACC false d f (val_of attrs f) x ->
         ev (fun n => forall mg mgtv vta rho, eval P W (run n) (ctxof d mg mgtv vta) rho (EIdx data_var i) = Ok x ->
              eval P W (run n) (ctxof d mg mgtv vta) rho e = Ok (val_of attrs f))).
      { intros f Hf i. destruct (tuple_read d f TC Hf) as (T1 & T2 & T3 & T4 & T5).
        destruct (de_alone d f F Hf) as [E2|[h Eh]].
        2:{ exists (EFn (mangle (f_name f) "deserializer") (EIdx data_var i)). split.
          - rewrite (de_ty_fn _ _ _ (mangle (f_name f) "deserializer")) by (cbn; now rewrite Eh). cbn [da_data field_arg da_inner da_iter bind].
            unfold de_default. cbn [field_arg da_default da_iter negb]. now rewrite andb_false_r.
          - intros y [[Hy _]|[[h' [Hy1 Hy2]] _]]; [congruence|]. rewrite Eh in Hy1. injection Hy1 as <-.
            apply ev_always. intros n mg mgtv vta rho E.
            change (eval P W (run n) (ctxof d mg mgtv vta) rho (EFn (mangle (f_name f) "deserializer") (EIdx data_var i))) with
              (match slookup (mangle (f_name f) "deserializer") (rev (de_fns d)) with
               | Some (GFun g) => u <- eval P W (run n) (ctxof d mg mgtv vta) rho (EIdx data_var i) ;; g u
               | Some (GSkip _) => Raise XType
               | None => Raise XName
               end).
            rewrite (de_fn_lookup d f h K6 Hf Eh), E. exact Hy2. }
        pose proof (field_arg_iter_ok c d f i None data_var Hd F Hf T4 T5 E2) as HA.
        destruct (de_ty_total P W NoDes d _ (coerces d) (de_cfg d false) false (f_type f) (de_cfg_plain d false F) (FT f Hf T2) _ HA) as [e He].
        exists e. split; [exact He|]. intros y [[_ Hy]|[[h' [Hy _]] _]]; [|congruence].
        eapply ev_mono; [eapply (IH _ (Hin f Hf) (f_type f) d false (coerces d) y); eauto using frag_scope, de_cfg_plain|].
        - eapply Cov_field; eauto.
        - cbv beta. intros n Hn mg mgtv vta rho E. apply Hn. unfold present. cbn [field_arg da_inner da_iter da_alias da_var da_index]. split; assumption. }
      destruct (iter_run d attrs s (c_fields d) attrs l [] Hs IH' FF3) as [es0 [S1 S2]].
      destruct (tuple_force (c_fields d) TC) as [Q1 Q2].
      apply ev_S in S2. eapply ev_mono; [exact S2|]. cbv beta. intros [|n] Hn; [contradiction|]. intros mg mgtv vta ro Hro.
      rewrite run_S. cbn [step render_de]. unfold render_from_iter. rewrite (frag_defields d F). cbn [bind]. rewrite T, Q1.
      assert (EM : forall g, (forall i f, g i f = (e <- de_ty P W (de_cfg d false) (field_arg d f i true None data_var) (f_type f) ;; Ok (f_name f, e))) ->
          mapMi_from g 0 (c_fields d) = Ok es0).
      { intros g Hg. rewrite <- S1. cbn [List.length]. generalize 0. generalize (c_fields d). induction l0; intros n0; [reflexivity|].
        cbn [mapMi_from]. rewrite Hg. rewrite IHl0; reflexivity. }
      rewrite EM by (intros; now rewrite (de_render_plain _ _ _ _ _ (de_cfg_plain d false F))).
      cbn [bind]. rewrite Hro. cbn [run_de_body]. cbn [app] in Hn. rewrite Hn. cbn [bind]. rewrite <- Q2.
      rewrite (ctor_runs d (val_of attrs)); auto.
      + now rewrite ID, <- EA.
      + intros f Hf R. apply slookup_NoDup; [rewrite map_map; exact K6|]. apply in_map_iff; eauto.
      + intros f Hf R. destruct (tuple_read d f TC Hf) as (_ & X & _). congruence.
      + intros f Hf R.
        assert (HA : exists y, FACC false d f (val_of attrs f) y).
        { apply Forall3_Forall2 in FF3. destruct (Forall2_in_l _ _ _ _ FF3 Hf) as [nv [_ [y [_ [-> Y]]]]]. eauto. }
        destruct HA as [y [[_ HA]|[_ HA]]]; [|exact HA]. eapply acc_bear; [apply le_n| |exact HA]. now apply FT.
      + now rewrite ID, <- EA.
    - assert (Hfin : In f (c_fields d)) by (rewrite Hf; now left).
      destruct (K14 T) as [f' [Ef [W1 [R1 [E3 E1]]]]]. rewrite Hf in Ef. injection Ef as <-.
      pose proof (unpaired d f F Hfin E1) as E2.
      set (a := if nm then {| da_name := f_name f; da_var := EVar "fake_dict"; da_index := 0; da_iter := false; da_inner := false;
                    da_case := None; da_alias := []; da_rename := Some "__serde_transparent__";
                    da_deser := da_deser (field_arg d f 0 false None data_var);
                    da_flatten := f_flatten f; da_default := has_some (f_default f);
                    da_parent := Some (c_id d); da_targs := None |}
               else {| da_name := f_name f; da_var := EVar "fake_data"; da_index := 0; da_iter := true; da_inner := false;
                    da_case := None; da_alias := []; da_rename := None;
                    da_deser := da_deser (field_arg d f 0 true None data_var);
                    da_flatten := f_flatten f; da_default := has_some (f_default f);
                    da_parent := Some (c_id d); da_targs := None |}).
      assert (AO : arg_ok P W d a (f_type f)).
      { unfold a, arg_ok. destruct nm; cbn; rewrite E2, E3; repeat split; auto; try discriminate.
        - intros p d' [= <-] H. rewrite ID in H. congruence.
        - intros _ _. exists "__serde_transparent__". split; [reflexivity|now left].
        - intros p d' [= <-] H. rewrite ID in H. congruence. }
      destruct (de_ty_total P W NoDes d _ (coerces d) (de_cfg d nm) nm (f_type f) (de_cfg_plain d nm F) (FT f Hfin R1) _ AO) as [e He].
      assert (G : DeGood v (f_type f)) by (apply (IH (f_name f, v)); now left).
      assert (CV : Cov P d (f_type f)) by (eapply Cov_field; eauto).
      specialize (G d nm (coerces d) x (FT f Hfin R1) CV (frag_scope d F) HA (de_cfg d nm) a e (de_cfg_plain d nm F) AO He).
      apply ev_S in G. eapply ev_mono; [exact G|]. cbv beta. intros [|n] Hn; [contradiction|]. intros mg mgtv vta ro Hro.
      rewrite run_S. cbn [step].
      assert (RB : render_de P W d nm = Ok (DbTransparent (f_name f) nm e (f_name f, f_kw_only f))).
      { unfold render_de, render_from_dict, render_from_iter. rewrite (frag_defields d F). cbn [bind]. rewrite Hf. cbn [filter force_kw].
        rewrite renderable_read, R1, T. cbn [orb]. unfold a in He. destruct nm; rewrite (de_render_plain _ _ _ _ _ (de_cfg_plain d _ F)), He; reflexivity. }
      rewrite RB. cbn [bind]. rewrite Hro. cbn [run_de_body].
      rewrite Hn.
      + cbn [bind].
        assert (FK : @cons ctor_arg (f_name f, f_kw_only f) nil = force_kw false (c_fields d)) by (rewrite Hf; cbn [force_kw]; now rewrite renderable_read, R1).
        assert (EA : [(f_name f, v)] = map (fun g => (f_name g, v)) (c_fields d)) by (rewrite Hf; reflexivity).
        rewrite FK, (ctor_runs d (fun _ => v)); auto.
        * now rewrite ID, <- EA.
        * intros g Hg _. rewrite Hf in Hg. destruct Hg as [<-|[]]. cbn. now rewrite String.eqb_refl.
        * intros g Hg Rg. rewrite Hf in Hg. destruct Hg as [<-|[]]. congruence.
        * intros g Hg Rg. rewrite Hf in Hg. destruct Hg as [<-|[]]. eapply acc_bear; [apply le_n|exact (FT f Hfin R1)|exact HA].
        * now rewrite ID, <- EA.
      + unfold a, present. destruct nm; cbn.
        * exists MDict, [(VStr "__serde_transparent__", x)], "__serde_transparent__". split; [reflexivity|]. split; [reflexivity|]. left. auto.
        * auto.
  Qed.

  (** ** Every annotation *)
  Notation evals d a x e v :=
    (ev (fun n => forall mg mgtv vta rho, present (run n) (ctxof d mg mgtv vta) rho a x ->
          eval P W (run n) (ctxof d mg mgtv vta) rho e = Ok v)).

  Lemma de_strip d cfg nm co a t e v x : de_plain cfg nm co -> arg_ok P W d a t ->
    (forall c l, t <> TGen c l) -> (forall n, t <> TVar n) -> de_ty P W cfg a t = Ok e ->
    (forall e0, de_core P W cfg a t = Ok e0 -> evals d a x e0 v) -> evals d a x e v.
  Proof.
    intros HP HA N1 N2 He H. rewrite (de_ty_core P W NoDes cfg nm co) in He by first [assumption | apply HA].
    inv_bind He. eapply ev_mono; [exact (H _ Hb)|]. cbv beta. intros n Hn mg mgtv vta rho Hp.
    rewrite (default_present _ _ _ d a t t x a0 e HA Hp He). auto.
  Qed.

  Lemma de_comp d nm co t l l' cfg a e name : (forall x, In x l -> DeGood x t) ->
    tyok P W (c_tagging d) co t -> Cov P d t -> scope_ok P d ->
    Forall2 (fun x y => ACC nm (c_tagging d) x t y) l l' -> de_plain cfg nm co ->
    arg_ok P W d (inner_arg a name (EVar "v")) t -> da_alias a = [] ->
    de_ty P W cfg (inner_arg a name (EVar "v")) t = Ok e ->
    ev (fun n => forall mg mgtv vta rho, mapM (fun y => eval P W (run n) (ctxof d mg mgtv vta) (("v", y) :: rho) e) l' = Ok l).
  Proof.
    intros IH T C S F Hc HA NA He.
    assert (G : ev (fun n => Forall2 (fun x y => forall mg mgtv vta rho, eval P W (run n) (ctxof d mg mgtv vta) (("v", y) :: rho) e = Ok x) l l')).
    { apply ev_Forall2. eapply Forall2_impl; [|exact F]. intros x y Hx _ H. cbv beta.
      eapply ev_mono; [exact (IH x Hx d nm co y T C S H cfg _ e Hc HA He)|]. cbv beta. intros n Hn mg mgtv vta rho. apply Hn.
      apply present_inner; [exact NA|reflexivity]. }
    eapply ev_mono; [exact G|]. cbv beta. intros n Hn mg mgtv vta rho. apply mapM_Ok. apply Forall2_flip.
    eapply Forall2_impl; [|exact Hn]. cbv beta. auto.
  Qed.

  (** Comprehensions over mappings, given expressions that restore keys and values *)
  Lemma de_map_comp d (RK RV : pyval -> pyval -> Prop) (l l' : list (pyval * pyval)) ek ev_ :
    (forall kv kv' : pyval * pyval, In kv l -> RK (fst kv) (fst kv') ->
       ev (fun n => forall mg mgtv vta rho, eval P W (run n) (ctxof d mg mgtv vta) (("k", fst kv') :: rho) ek = Ok (fst kv))) ->
    (forall kv kv' : pyval * pyval, In kv l -> RV (snd kv) (snd kv') ->
       ev (fun n => forall mg mgtv vta rho k, eval P W (run n) (ctxof d mg mgtv vta) (("k", k) :: ("v", snd kv') :: rho) ev_ = Ok (snd kv))) ->
    Forall2 (fun kv kv' => RK (fst kv) (fst kv') /\ RV (snd kv) (snd kv')) l l' ->
    distinct P (map fst l) -> forallb (hashable P) (map fst l) = true ->
    ev (fun n => forall mg mgtv vta rho m it,
      eval P W (run n) (ctxof d mg mgtv vta) rho it = Ok (VMap m l') ->
      eval P W (run n) (ctxof d mg mgtv vta) rho (EMapComp ek ev_ it) = Ok (VMap MDict l)).
  Proof.
    intros HK HV F D HH.
    assert (G : ev (fun n => Forall2 (fun kv kv' => forall mg mgtv vta rho,
        (let rho' := ("k", fst kv') :: ("v", snd kv') :: rho in
         k <- eval P W (run n) (ctxof d mg mgtv vta) rho' ek ;; x <- eval P W (run n) (ctxof d mg mgtv vta) rho' ev_ ;;
         if hashable P k then Ok (k, x) else Raise XType) = Ok kv) l l')).
    { apply ev_Forall2. eapply Forall2_impl; [|exact F]. intros kv kv' Hx _ [H1 H2]. cbv beta.
      eapply ev_mono; [exact (ev_and _ _ (HK kv kv' Hx H1) (HV kv kv' Hx H2))|]. cbv beta. intros n [N1 N2] mg mgtv vta rho.
      cbv zeta. rewrite N1. cbn [bind]. rewrite N2. cbn [bind]. rewrite forallb_forall in HH. rewrite HH by now apply in_map.
      now destruct kv. }
    eapply ev_mono; [exact G|]. cbv beta. intros n Hn mg mgtv vta rho m it E. cbn [eval]. rewrite E. cbn [bind items].
    match goal with |- bind ?m _ = _ => assert (EM : m = Ok l) end.
    { apply mapM_Ok. apply Forall2_flip. eapply Forall2_impl; [|exact Hn]. cbv beta. intros a b _ _ H. apply H. }
    rewrite EM. cbn [bind]. rewrite mk_map_distinct by assumption. reflexivity.
  Qed.

  Lemma de_tuple d nm co cfg a dat s : de_plain cfg nm co -> da_alias a = [] -> s = KList \/ s = KTuple -> scope_ok P d ->
    forall ts l l' n0 es0,
    (forall x t, In x l -> DeGood x t) ->
    Forall (tyok P W (c_tagging d) co) ts -> Forall (Cov P d) ts ->
    (forall t, In t ts -> forall n v, arg_ok P W d (inner_arg a n v) t) ->
    Forall3 (fun t x y => ACC nm (c_tagging d) x t y) ts l l' ->
    mapMi_from (fun n x => de_ty P W cfg (inner_arg a (show (EIdx dat n)) (EIdx dat n)) x) n0 ts = Ok es0 ->
    ev (fun n => forall mg mgtv vta rho l0, eval P W (run n) (ctxof d mg mgtv vta) rho dat = Ok (VSeq s (l0 ++ l')) -> List.length l0 = n0 ->
          mapM (eval P W (run n) (ctxof d mg mgtv vta) rho) es0 = Ok l).
  Proof.
    intros Hc NA Hs S ts l l' n0 es0 IH T C HA F. revert n0 es0 IH T C HA. induction F; intros n0 es0 IH T C HA M.
    - simpl in M. injection M as <-. apply ev_always. intros; reflexivity.
    - cbn [mapMi_from] in M. inv_bind M. inv_bind M. injection M as <-.
      pose proof (IH b a0 (or_introl eq_refl) d nm co c (Forall_inv T) (Forall_inv C) S H cfg _ _ Hc (HA a0 (or_introl eq_refl) _ _) Hb) as G.
      assert (G' : ev (fun n => forall mg mgtv vta rho l0, eval P W (run n) (ctxof d mg mgtv vta) rho dat = Ok (VSeq s (l0 ++ lc)) -> List.length l0 = 1 + n0 ->
          mapM (eval P W (run n) (ctxof d mg mgtv vta) rho) a2 = Ok lb)).
      { apply IHF; eauto using Forall_inv_tail. - intros; apply IH; now right. - intros; apply HA; now right. }
      eapply ev_mono; [exact (ev_and _ _ G G')|]. cbv beta. intros n [N1 N2] mg mgtv vta rho l0 E1 E2.
      cbn [mapM]. rewrite N1.
      + cbn [bind]. rewrite (N2 mg mgtv vta rho (l0 ++ [c])); [reflexivity| |rewrite app_length; simpl; lia].
        now rewrite <- app_assoc.
      + apply present_inner; [exact NA|]. cbn [eval]. rewrite E1. cbn [bind getidx]. rewrite <- E2, nth_opt_app. destruct Hs as [-> | ->]; reflexivity.
  Qed.

  Lemma factory_name_ok t f : factory_of t = Some f -> factory_name P t = f /\ builtin_factory f = true.
  Proof.
    destruct t; cbn; try discriminate.
    - intros [= <-]. destruct p; split; reflexivity.
    - destruct k; intros [= <-]; split; reflexivity.
    - destruct k; intros [= <-]; split; reflexivity.
    - intros [= <-]; split; reflexivity.
    - intros [= <-]; split; reflexivity.
    - destruct k; intros [= <-]; split; reflexivity.
    - intros [= <-]; split; reflexivity.
    - intros [= <-]; split; reflexivity.
    - destruct b as [[]|[]|[]| | |]; intros [= <-]; split; reflexivity.
  Qed.

  Lemma lit_renderable_ok l : forallb lit_arg_ok l = true -> render_literal_de l = Ok l.
  Proof.
    intros H. unfold render_literal_de.
    assert (E : forallb lit_renderable l = true).
    { rewrite forallb_forall in *. intros x Hx. specialize (H x Hx). destruct x; cbn in *; auto.
      clear Hx. induction s; [reflexivity|]. cbn in *. apply andb_prop in H as [H1 H2]. rewrite H1. auto. }
    now rewrite E.
  Qed.

  Lemma eval_defdict call cx rho e m l f : builtin_factory f = true -> eval P W call cx rho e = Ok (VMap m l) ->
    eval P W call cx rho (EDefDict f e) = Ok (VMap (MDefault f) l).
  Proof. intros H E. cbn [eval]. rewrite H, E. reflexivity. Qed.

  Theorem de_both : forall n v, vsize v <= n -> (forall t, DeGood v t) /\ (forall c, ClassGood v c).
  Proof.
    induction n; intros v Hn; [destruct v; simpl in Hn; lia|].
    assert (IH : forall x, vsize x < vsize v -> forall t, DeGood x t) by (intros; apply IHn; lia).
    assert (IHC : forall x, vsize x < vsize v -> forall c, ClassGood x c) by (intros; apply IHn; lia).
    clear IHn.
    assert (HC : forall c, ClassGood v c).
    { intros c d nm tg x Hd A. destruct (acc_class _ _ _ _ _ _ _ _ _ A) as [attrs ->].
      exact (de_obj c attrs (fun nv Hnv => IH (snd nv) (vsize_obj c attrs nv Hnv)) (fun nv Hnv => IHC (snd nv) (vsize_obj c attrs nv Hnv)) d nm tg x Hd A). }
    split; [|exact HC]. clear IHC.
    induction t using pytype_ind'; intros d nm co x T C S HA0 cfg a e Hc HA He;
      try (cbn [tyok] in T; contradiction);
      (eapply (de_strip d cfg nm co); [exact Hc|exact HA|discriminate|discriminate|exact He|]);
      clear e He; intros e He; cbn [de_core] in He.
    - (* prim *) apply acc_prim in HA0 as [V ->]. unfold de_prim in He. inv_bind He.
      apply ev_always. intros m mg mgtv vta rho Hp. pose proof (prim_data_eval _ _ _ d a _ v a0 HA Hp Hb) as E.
      assert (E' : eval P W (run m) (ctxof d mg mgtv vta) rho (if d_suppress cfg && negb (is_prim_sub (TPrim p)) then a0 else ECoerce (d_cname cfg) (da_name a) (TPrim p) a0) = Ok v).
      { destruct (d_suppress cfg); [exact E|]. cbn [andb eval resolve bind]. rewrite E. cbn [bind]. eapply coerce_same; eauto. }
      destruct (is_float_class (TPrim p)) eqn:FC; injection He as <-; [|exact E'].
      cbn [eval]. cbn [x_dn de_ctx bind]. rewrite truthy_bool. destruct dn as [h|] eqn:Edn; cbn [has_some]; [|exact E'].
      cbn [bind]. rewrite E. cbn [bind]. destruct p; try discriminate FC. destruct v; try discriminate V. now apply HookFloat.
    - (* subclass *) apply acc_sub in HA0 as [u [-> [V [X Hh]]]]. destruct T as [_ NB]. unfold de_prim in He. inv_bind He.
      apply ev_always. intros m mg mgtv vta rho Hp. pose proof (prim_data_eval _ _ _ d a _ x a0 HA Hp Hb) as E.
      assert (E' : eval P W (run m) (ctxof d mg mgtv vta) rho (ECoerce (d_cname cfg) (da_name a) (TPrimSub n0 p) a0) = Ok (VSub n0 u)).
      { cbn [eval x_g de_ctx]. rewrite (de_lookup P d (TPrimSub n0 p)); [|apply S|reflexivity|apply C; [reflexivity|constructor]].
        cbn [bind]. rewrite E. cbn [bind]. now apply coerce_sub. }
      rewrite andb_false_r in He.
      destruct (is_float_class (TPrimSub n0 p)) eqn:FC; injection He as <-; [|exact E'].
      cbn [eval x_dn de_ctx bind]. rewrite truthy_bool. destruct dn as [h|] eqn:Edn; cbn [has_some]; [|exact E'].
      destruct p; try discriminate FC. now destruct (Hh eq_refl).
    - (* NewType *) apply acc_new in HA0 as [V ->]. unfold de_prim in He. inv_bind He.
      apply ev_always. intros m mg mgtv vta rho Hp. pose proof (prim_data_eval _ _ _ d a _ v a0 HA Hp Hb) as E.
      injection He as <-. destruct (d_suppress cfg); [exact E|]. cbn [andb eval resolve bind]. rewrite E. cbn [bind]. eapply coerce_same; eauto.
    - (* None *) apply acc_none in HA0 as [-> ->]. injection He as <-. apply ev_always. reflexivity.
    - (* Any *) apply acc_any in HA0 as ->. apply ev_always. intros m mg mgtv vta rho Hp.
      eapply data_eval; eauto. eapply arg_ok_no_alias; eauto.
    - (* union *)
      destruct (is_opt (TUnion l)) eqn:O.
      + destruct (opt_shape l O) as [y [-> Hy]]. pose proof (tyok_opt P W _ _ _ T Hy) as Ty.
        assert (Cy : Cov P d y) by (eapply Cov_sub; [exact C|]; eapply sub_union; [now left|constructor]).
        rewrite opt_arg_some in He by exact Hy. inv_bind He. inv_bind He. injection He as <-.
        destruct (acc_opt _ _ _ _ _ _ _ _ _ HA0 Hy) as [[-> ->]|[Hx HAy]].
        * apply ev_always. intros m mg mgtv vta rho Hp. cbn [eval].
          rewrite (opt_exists _ _ _ d a _ _ _ _ HA Hp Hb). reflexivity.
        * inversion H; subst. match goal with G : DeGood v y |- _ => rename G into Gy end.
          eapply ev_mono; [exact (Gy d nm co x Ty Cy S HAy cfg (opt_inner a) _ Hc (arg_ok_opt P W d a y HA Hy) Hb0)|]. cbv beta.
          intros m Hm mg mgtv vta rho Hp. cbn [eval]. rewrite (opt_exists _ _ _ d a _ _ _ _ HA Hp Hb). cbn [bind]. rewrite truthy_bool.
          destruct x; [congruence|..]; now apply Hm.
      + rewrite opt_arg_none in He by exact O. inv_bind He. injection He as <-.
        assert (NA : da_alias a = []).
        { apply (arg_ok_no_alias P W _ _ _ HA). destruct l as [|z [|y [|]]]; try reflexivity; destruct y; try reflexivity.
          cbn [is_opt] in O. cbn [scalar_ty]. apply negb_false_iff in O. now rewrite O. }
        assert (HB : forall t e, In t l -> bulk t = true -> carrier P t -> ACC true (c_tagging d) v t x -> de_ty P W (union_de_cfg d) union_de_arg t = Ok e ->
          ev (fun n => eval P W (run n) (ctxof d None None None) [("fake_dict", VMap MDict [(VStr "fake_key", x)]); ("data", x)] e = Ok v)).
        { intros t e Ht B KT At Et. rewrite Forall_forall in H.
          pose proof (H t Ht d true false x (carrier_tyok P W _ t KT) (Cov_sub P d _ t C (sub_union t l t Ht (sub_refl t))) S At
            (union_de_cfg d) union_de_arg e (union_cfg_plain_de d) (union_arg_ok d t) Et) as G.
          eapply ev_mono; [exact G|]. cbv beta. intros m Hm. apply Hm. unfold present. cbn.
          exists MDict, [(VStr "fake_key", x)], "fake_key". repeat split. left. split; reflexivity. }
        eapply ev_mono; [exact (union_good d nm l v x (tyok_union P W _ _ _ T O) S C O HA0 HC HB)|]. cbv beta.
        intros m Hm mg mgtv vta rho Hp. cbn [eval]. rewrite (data_eval _ _ _ a _ x _ Hp NA Hb). cbn [bind x_cls x_reuse x_dn de_ctx]. exact Hm.
    - (* list *) apply acc_list in HA0 as [l [s [l' [-> [-> F]]]]]. inv_bind He. inv_bind He. injection He as <-.
      pose proof (arg_ok_no_alias P W _ _ _ HA eq_refl) as NA.
      eapply ev_mono; [eapply (de_comp d nm co t l l' cfg a a0 "v"); eauto|].
      + intros x Hx. apply IH. now apply vsize_seq.
      + eapply Cov_sub; [exact C|]. constructor; constructor.
      + eapply arg_ok_inner; eauto.
      + cbv beta. intros m Hm mg mgtv vta rho Hp. cbn [eval]. rewrite (data_eval _ _ _ a _ _ _ Hp NA Hb0). cbn [bind iter]. rewrite Hm. reflexivity.
    - (* set *) apply acc_set in HA0 as [l [s [l' [-> [-> [F [D HH]]]]]]]. inv_bind He. inv_bind He. injection He as <-. destruct T as [T1 T2].
      pose proof (arg_ok_no_alias P W _ _ _ HA eq_refl) as NA.
      eapply ev_mono; [eapply (de_comp d nm co t l l' cfg a a0 "v"); eauto|].
      + intros x Hx. apply IH. now apply vsize_seq.
      + eapply Cov_sub; [exact C|]. constructor; constructor.
      + eapply arg_ok_inner; eauto.
      + cbv beta. intros m Hm mg mgtv vta rho Hp. cbn [eval]. rewrite (data_eval _ _ _ a _ _ _ Hp NA Hb0). cbn [bind iter]. rewrite Hm. cbn [bind]. now apply mk_seq_distinct.
    - (* deque *) apply acc_deque in HA0 as [l [s [l' [-> [-> F]]]]]. inv_bind He. inv_bind He. injection He as <-.
      pose proof (arg_ok_no_alias P W _ _ _ HA eq_refl) as NA.
      eapply ev_mono; [eapply (de_comp d nm co t l l' cfg a a0 "v"); eauto|].
      + intros x Hx. apply IH. now apply vsize_seq.
      + eapply Cov_sub; [exact C|]. constructor; constructor.
      + eapply arg_ok_inner; eauto.
      + cbv beta. intros m Hm mg mgtv vta rho Hp. cbn [eval]. rewrite (data_eval _ _ _ a _ _ _ Hp NA Hb0). cbn [bind iter]. rewrite Hm. reflexivity.
    - (* Counter *) apply acc_counter in HA0 as [l [s [l' [-> [-> [F [D HH]]]]]]]. inv_bind He. inv_bind He. injection He as <-. destruct T as [T1 T2].
      pose proof (arg_ok_no_alias P W _ _ _ HA eq_refl) as NA.
      eapply ev_mono; [eapply (de_map_comp d (fun x y => ACC nm (c_tagging d) x t y) (fun x y => y = x) l l' a0 (EVar "v")); eauto|].
      + intros kv kv' Hkv H1. eapply ev_mono; [eapply (IH (fst kv)); eauto|].
        * now apply vsize_map.
        * eapply Cov_sub; [exact C|]. constructor; constructor.
        * eapply arg_ok_inner; eauto.
        * cbv beta. intros m Hm mg mgtv vta rho. apply Hm. apply present_inner; [exact NA|reflexivity].
      + intros kv kv' _ ->. apply ev_always. reflexivity.
      + cbv beta. intros m Hm mg mgtv vta rho Hp.
        change (bind (eval P W (run m) (ctxof d mg mgtv vta) rho (EMapComp a0 (EVar "v") a1)) (fun v => mk_counter P v) = Ok (VMap MCounter l)).
        rewrite (Hm mg mgtv vta rho s a1); [reflexivity|]. exact (data_eval _ _ _ a _ _ _ Hp NA Hb0).
    - (* dict *) apply acc_dict in HA0 as [m0 [l [m' [l' [-> [-> [DK [F [D HH]]]]]]]]]. destruct T as [T1 [T2 [T3 T4]]].
      pose proof (arg_ok_no_alias P W _ _ _ HA eq_refl) as NA.
      inv_bind He. inv_bind He. inv_bind He.
      assert (CK : Cov P d t1) by (eapply Cov_sub; [exact C|]; constructor; constructor).
      assert (CV : Cov P d t2) by (eapply Cov_sub; [exact C|]; apply sub_dict_v; constructor).
      assert (G : ev (fun n => forall mg mgtv vta rho m it,
         eval P W (run n) (ctxof d mg mgtv vta) rho it = Ok (VMap m l') ->
         eval P W (run n) (ctxof d mg mgtv vta) rho (EMapComp a0 a1 it) = Ok (VMap MDict l))).
      { eapply (de_map_comp d (fun x y => ACC nm (c_tagging d) x t1 y \/
           t1 = TPrim PInt /\ exists z s, x = VInt z /\ y = VStr s /\ w_int_of_str W s = Some z)
           (fun x y => ACC nm (c_tagging d) x t2 y) l l' a0 a1); [| |exact F|exact D|exact HH].
        - cbv beta. intros kv kv' Hkv [H1|H1].
          + destruct (is_num_key t1) eqn:NK.
            * injection Hb as <-. apply ev_always. intros m mg mgtv vta rho. cbn [eval slookup]. cbn [String.eqb Ascii.eqb Bool.eqb of_option bind].
              destruct t1; try discriminate NK.
              -- apply acc_prim in H1 as [V ->]. cbn [resolve bind]. eapply coerce_same; eauto.
              -- apply acc_sub in H1 as [u [-> [V [X Hh]]]]. cbn [x_g de_ctx].
                 rewrite (de_lookup P d (TPrimSub _ p)); [|apply S|reflexivity|apply CK; [reflexivity|constructor]].
                 cbn [bind]. apply coerce_sub; auto. apply T2.
            * eapply ev_mono; [exact (IH (fst kv) (proj1 (vsize_map m0 l kv Hkv)) t1 d nm co (fst kv') T2 CK S H1 cfg _ a0 Hc (arg_ok_inner P W d a _ t1 _ _ HA NA) Hb)|].
              cbv beta. intros m Hm mg mgtv vta rho. apply Hm. apply present_inner; [exact NA|reflexivity].
          + destruct H1 as [-> [z [s [E1 [E2 E3]]]]]. cbn [is_num_key] in Hb. injection Hb as <-. apply ev_always. intros m mg mgtv vta rho.
            rewrite E1, E2. cbn. rewrite E3. reflexivity.
        - intros kv kv' Hkv H1. eapply ev_mono; [exact (IH (snd kv) (proj2 (vsize_map m0 l kv Hkv)) t2 d nm co (snd kv') T3 CV S H1 cfg _ a1 Hc (arg_ok_inner P W d a _ t2 _ _ HA NA) Hb0)|].
          cbv beta. intros m Hm mg mgtv vta rho k0. apply Hm. apply present_inner; [exact NA|reflexivity]. }
      eapply ev_mono; [exact G|]. cbv beta. intros m Hm mg mgtv vta rho Hp.
      pose proof (Hm mg mgtv vta rho m' a2 (data_eval _ _ _ a _ _ _ Hp NA Hb1)) as E.
      destruct k; cbn [dict_kind] in DK; injection He as <-; try (subst m0; exact E).
      destruct (factory_of t2) as [ff|] eqn:Ef; [|contradiction]. subst m0. destruct (factory_name_ok _ _ Ef) as [-> BF].
      exact (eval_defdict _ _ _ _ _ _ _ BF E).
    - (* tuple *) apply acc_tuple in HA0 as [l0 [s [l' [-> [-> [Hs F]]]]]]. destruct (tyok_tuple P W _ _ _ T) as [T1 T2].
      pose proof (arg_ok_no_alias P W _ _ _ HA eq_refl) as NA.
      destruct l as [|t0 ts]; [congruence|]. inv_bind He. inv_bind He. injection He as <-.
      eapply ev_mono; [eapply (de_tuple d nm co cfg a a0 s Hc NA Hs S (t0 :: ts) l0 l' 0 a1); eauto|].
      + intros x t Hx. apply IH. now apply vsize_seq.
      + rewrite Forall_forall. intros t Ht. eapply Cov_sub; [exact C|]. eapply sub_tuple; [exact Ht|constructor].
      + intros t Ht n0 v0. eapply arg_ok_inner; eauto.
      + cbv beta. intros m Hm mg mgtv vta rho Hp.
        change (bind (mapM (eval P W (run m) (ctxof d mg mgtv vta) rho) a1) (fun l => Ok (VSeq KTuple l)) = Ok (VSeq KTuple l0)).
        rewrite (Hm mg mgtv vta rho []); [reflexivity| |reflexivity]. exact (data_eval _ _ _ a _ _ _ Hp NA Hb).
    - (* vartuple *) apply acc_vartuple in HA0 as [l [s [l' [-> [-> F]]]]]. inv_bind He. inv_bind He. injection He as <-.
      pose proof (arg_ok_no_alias P W _ _ _ HA eq_refl) as NA.
      eapply ev_mono; [eapply (de_comp d nm co t l l' cfg a a1); eauto|].
      + intros x Hx. apply IH. now apply vsize_seq.
      + eapply Cov_sub; [exact C|]. constructor; constructor.
      + eapply arg_ok_inner; eauto.
      + cbv beta. intros m Hm mg mgtv vta rho Hp. cbn [eval]. rewrite (data_eval _ _ _ a _ _ _ Hp NA Hb). cbn [bind iter]. rewrite Hm. reflexivity.
    - (* bare *)
      pose proof (arg_ok_no_alias P W _ _ _ HA eq_refl) as NA. destruct T as [B1 B2].
      apply ev_always. intros m mg mgtv vta rho Hp.
      inversion HA0; subst.
      + inv_bind He. injection He as <-. cbn [eval]. rewrite (data_eval _ _ _ a _ _ _ Hp NA Hb). reflexivity.
      + inv_bind He. injection He as <-. cbn [eval]. rewrite (data_eval _ _ _ a _ _ _ Hp NA Hb). cbn [bind iter]. now apply mk_seq_distinct.
      + destruct k; try congruence; exact (data_eval _ _ _ a _ _ _ Hp NA He).
      + inv_bind He. injection He as <-. cbn [eval]. rewrite (data_eval _ _ _ a _ _ _ Hp NA Hb). reflexivity.
      + inv_bind He. injection He as <-. cbn [eval]. rewrite (data_eval _ _ _ a _ _ _ Hp NA Hb). reflexivity.
      + inv_bind He. injection He as <-. cbn [eval]. rewrite (data_eval _ _ _ a _ _ _ Hp NA Hb). reflexivity.
    - (* enum *) inv_bind He. injection He as <-. apply ev_always. intros m mg mgtv vta rho Hp. cbn [eval x_g de_ctx].
      rewrite (de_lookup P d (TEnum c)); [|apply S|reflexivity|apply C; [reflexivity|constructor]]. cbn [bind].
      rewrite (prim_data_eval _ _ _ d a _ x a0 HA Hp Hb). cbn [bind]. eapply de_enum_acc; eauto.
    - (* class *) pose proof (arg_ok_no_alias P W _ _ _ HA eq_refl) as NA. pose proof HA as (_ & NF & _ & HPar & _).
      unfold de_class in He. rewrite NF in He. inv_bind He. injection He as <-.
      destruct (acc_class _ _ _ _ _ _ _ _ _ HA0) as [attrs ->].
      destruct (acc_obj _ _ _ _ _ HA0) as [dc [Hdc _]].
      eapply ev_mono; [exact (HC c dc nm _ x Hdc HA0)|]. cbv beta. intros m Hm mg mgtv vta rho Hp. cbn [eval].
      match goal with |- bind ?t _ = _ => assert (ET : t = Ok dc) end.
      { assert (L : resolve P (x_g (ctxof d mg mgtv vta)) (TClass c) = Ok (TClass c)).
        { apply de_lookup; [apply S|reflexivity|apply C; [reflexivity|constructor]]. }
        destruct (da_parent a) as [p|] eqn:EP.
        - destruct (String.eqb_spec p c) as [->|N].
          + cbn [x_cls de_ctx]. f_equal. symmetry. eapply HPar; eauto.
          + rewrite L. cbn [bind]. now rewrite Hdc.
        - rewrite L. cbn [bind]. now rewrite Hdc. }
      rewrite ET. cbn [bind]. rewrite (data_eval _ _ _ a _ _ _ Hp NA Hb). cbn [bind x_reuse x_dn x_mg x_mgtv de_ctx].
      destruct Hc as [-> _]. now apply Hm.
    - (* literal *) pose proof (arg_ok_no_alias P W _ _ _ HA eq_refl) as NA. apply acc_lit in HA0 as [y [Hy [-> ->]]].
      inv_bind He. injection He as <-. apply ev_always. intros m mg mgtv vta rho Hp. cbn [eval]. cbn [tyok] in T.
      rewrite literal_args_ok; [|apply S|apply C; constructor]. rewrite (lit_renderable_ok l T). cbn [bind].
      rewrite (data_eval _ _ _ a _ _ _ Hp NA Hb). cbn [bind].
      assert (EX : existsb (fun x => eqv P (lit_val x) (lit_val y)) l = true).
      { apply existsb_exists. exists y. split; [exact Hy|]. apply lit_eqv_refl. rewrite forallb_forall in T. auto. }
      now rewrite EX.
    - (* str *) pose proof (arg_ok_no_alias P W _ _ _ HA eq_refl) as NA.
      inv_bind He. injection He as <-. apply ev_always. intros m mg mgtv vta rho Hp. pose proof (data_eval _ _ _ a _ _ _ Hp NA Hb) as E.
      assert (L : resolve P (de_globals P d) (TStr k) = Ok (TStr k)).
      { apply de_lookup; [apply S|reflexivity|apply C; [reflexivity|constructor]]. }
      cbn [eval x_reuse x_g de_ctx bind]. rewrite truthy_bool, E, L. cbn [bind]. rewrite truthy_bool.
      inversion HA0; subst.
      + assert (G : call_ctor P W (TStr k) (VStr s) = Ok (VInst k s)) by (cbn; assumption). rewrite G. destruct reuse; reflexivity.
      + cbn [named_inst]. rewrite issub_refl. match goal with R : reuse = true |- _ => rewrite R end. reflexivity.
    - (* date *) pose proof (arg_ok_no_alias P W _ _ _ HA eq_refl) as NA.
      inv_bind He. injection He as <-. apply ev_always. intros m mg mgtv vta rho Hp. pose proof (data_eval _ _ _ a _ _ _ Hp NA Hb) as E.
      assert (L : resolve P (de_globals P d) (TDate k) = Ok (TDate k)).
      { apply de_lookup; [apply S|reflexivity|apply C; [reflexivity|constructor]]. }
      cbn [eval x_reuse x_g de_ctx bind]. rewrite truthy_bool, E, L. cbn [bind]. rewrite truthy_bool.
      inversion HA0; subst.
      + match goal with G : w_iso W k _ = _ |- _ => rewrite G end. destruct reuse; reflexivity.
      + cbn [named_inst]. rewrite issub_refl. match goal with R : reuse = true |- _ => rewrite R end. reflexivity.
    - (* alias *) apply acc_alias in HA0. eapply IHt; eauto.
      + apply T.
      + eapply Cov_sub; [exact C|]. constructor; constructor.
  Qed.
  Theorem de_good : forall n v, vsize v <= n -> forall t, DeGood v t.
  Proof. intros n v Hn. now apply (de_both n). Qed.
End DeRT.
