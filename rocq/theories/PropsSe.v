(** Properties of to_dict / to_tuple for classes of any kind: which keys appear (C03), skip predicates
    (C05), skip_none (C06), flattened dicts (C12), skipped fields (C04), custom serializers of fields (C34). *)
From Coq Require Import String List ZArith Bool Ascii Lia.
From Verif Require Import Base PyVal PyType Program Compat Syntax SeRender DeRender Eval Facts Mono Spec Walk Depend Ex.
Import ListNotations.
Open Scope string_scope.
Open Scope list_scope.

Section Se.
  Variables (P : program) (W : world) (K : list (tagging * pytype)).
  Notation run := (run P W K).
  Notation es := (enum_scalar P).

  (** ** Specification *)

  (** The serialized value of a field: what the expression generated for it evaluates to. *)
  Definition ser_value (n : nat) (d : classdef) (named reuse conv skip : bool) (obj : pyval) (f : fielddef) : res pyval :=
    fns <- se_fns P (class_fuel P) d ;;
    l <- se_field P (class_fuel P) (se_cfg d named) f obj_var ;;
    vs <- mapM (eval P W (run n) (se_ctx P d fns reuse conv skip) [("obj", obj)]) l ;;
    Ok (tuple_of vs).

  (** A field level flag overrides the class level one. *)
  Definition level (o : option bool) (b : bool) : bool := match o with Some x => x | None => b end.

  (** The predicate that decides whether the field with serialized value [v] is dropped, if there is one:
      skip_if, then skip_if_false, then skip_if_default, then skip_if_none. *)
  Definition drop_rule (n : nat) (d : classdef) (f : fielddef) (v : pyval) : option (res bool) :=
    match f_skip_if f with
    | Some p => Some (p v)
    | None =>
      if f_skip_if_false f then Some (Ok (negb (truthy es v)))
      else if level (f_skip_if_default f) (c_skip_if_default d) then
        Some match dflt f with
             | None => Ok false
             | Some r =>
               dv <- r ;;
               sd <- match dv with
                     | VObj _ _ => catch (to_dict P W K n dv None None None false) (fun _ => Ok (asdict_std dv))
                     | _ => Ok dv
                     end ;;
               Ok (eqv P v sd)
             end
      else if level (f_skip_if_none f) (c_skip_if_none d) then Some (Ok match v with VNone => true | _ => false end)
      else None
    end.

  Definition is_vnone (v : pyval) : bool := match v with VNone => true | _ => false end.

  (** [out]: what a field with wire name [k] and serialized value [v] contributes to the mapping *)
  Definition contributes (n : nat) (skip : bool) (d : classdef) (f : fielddef) (k : string) (v : pyval) (out : list (string * pyval)) : Prop :=
    match drop_rule n d f v with
    | Some r => exists b : bool, r = Ok b /\ out = if b then [] else [(k, v)]
    | None => out = if skip && is_vnone v then [] else [(k, v)]
    end.

  (** Assignments of keys one after the other *)
  Definition assigned (l : list (string * pyval)) : list (pyval * pyval) :=
    fold_left (fun m kv => dset es m (VStr (fst kv)) (snd kv)) l [].

  (** Classes without flattened fields, whose instances are written as mappings *)
  Definition flatless (d : classdef) : Prop :=
    c_transparent d = false /\ c_ser_class_var d = false /\ NoDup (map f_name (c_fields d)) /\
    forall f, In f (c_fields d) -> f_flatten f = false.

  (** Classes whose flattened fields, if any, are flattened dicts *)
  Definition shallow (d : classdef) : Prop :=
    c_transparent d = false /\ c_ser_class_var d = false /\ NoDup (map f_name (c_fields d)) /\
    forall f, In f (c_fields d) -> own_level f.

  (** The fields with an entry of their own *)
  Definition declared (d : classdef) : list fielddef := filter (fun f => written f && negb (f_flatten f)) (c_fields d).

  (** A flattened dict that serializes to [v] contributes the entries [l]; anything false contributes nothing. *)
  Definition extra_entries (v : pyval) (l : list (pyval * pyval)) : Prop :=
    if truthy es v then exists m, v = VMap m l else l = [].

  (** What a field contributes: assignments of keys, or entries for keys that are still free *)
  Inductive part := Own (l : list (string * pyval)) | Extra (l : list (pyval * pyval)).

  Definition put (m : list (pyval * pyval)) (p : part) : list (pyval * pyval) :=
    match p with
    | Own l => fold_left (fun m kv => dset es m (VStr (fst kv)) (snd kv)) l m
    | Extra l => fold_left (fun m kv => if dmem es m (fst kv) then m else m ++ [kv]) l m
    end.

  Definition part_of (n : nat) (skip : bool) (d : classdef) (ser : fielddef -> res pyval) (f : fielddef) (p : part) : Prop :=
    exists v, ser f = Ok v /\
      if f_flatten f then exists l, extra_entries v l /\ p = Extra l
      else exists k out, wire_name W d f = Some k /\ contributes n skip d f k v out /\ p = Own out.

  (** ** Lemmas *)

  Lemma flatless_shallow d : flatless d -> shallow d.
  Proof. intros (A & B & C & D). repeat split; auto. intros f Hf. left. auto. Qed.

  Lemma assigned_nodup l : NoDup (map fst l) -> assigned l = map (fun kv => (VStr (fst kv), snd kv)) l.
  Proof.
    unfold assigned. intros ND.
    assert (G : forall acc, NoDup (map fst (acc ++ l)) ->
      fold_left (fun m kv => dset es m (VStr (fst kv)) (snd kv)) l (map (fun kv => (VStr (fst kv), snd kv)) acc) =
      map (fun kv => (VStr (fst kv), snd kv)) (acc ++ l)).
    { clear ND. induction l as [|[k v] l IH]; intros acc ND; [now rewrite app_nil_r|].
      cbn [fold_left fst snd].
      rewrite dset_fresh.
      - replace (map (fun kv : string * pyval => (VStr (fst kv), snd kv)) acc ++ [(VStr k, v)])
          with (map (fun kv : string * pyval => (VStr (fst kv), snd kv)) (acc ++ [(k, v)])) by (rewrite map_app; reflexivity).
        rewrite IH, <- app_assoc; [reflexivity|]. now rewrite <- app_assoc.
      - rewrite dget_skeys. apply slookup_None. rewrite map_app in ND. apply NoDup_remove_2 in ND.
        intros H. apply ND. apply in_or_app. now left. }
    apply (G [] ND).
  Qed.

  Lemma dget_assigned l k : dget es (assigned l) (VStr k) = slookup k (rev l).
  Proof.
    unfold assigned. rewrite <- (app_nil_r (rev l)).
    assert (G : forall m acc, (forall k, dget es m (VStr k) = slookup k acc) ->
      dget es (fold_left (fun m kv => dset es m (VStr (fst kv)) (snd kv)) l m) (VStr k) = slookup k (rev l ++ acc)).
    { induction l as [|[a b] l IH]; intros m acc H; cbn [fold_left rev app fst snd]; [apply H|].
      rewrite <- app_assoc. apply IH. intros k'. cbn [app slookup]. rewrite dget_dset_str. now rewrite H. }
    apply G. reflexivity.
  Qed.

  Lemma key_assigned l x : In x (map fst (assigned l)) -> exists k, x = VStr k /\ In k (map fst l).
  Proof.
    unfold assigned.
    assert (G : forall m, (forall x, In x (map fst m) -> exists k, x = VStr k /\ In k (map fst l)) \/ True ->
      In x (map fst (fold_left (fun m kv => dset es m (VStr (fst kv)) (snd kv)) l m)) ->
      In x (map fst m) \/ exists k, x = VStr k /\ In k (map fst l)).
    { induction l as [|[a b] l IH]; intros m H0 Hx; cbn [fold_left fst snd] in *; [now left|].
      apply IH in Hx; [|now right]. destruct Hx as [Hx|[k [-> Hk]]]; [|right; exists k; split; auto; now right].
      assert (S : forall m x, In x (map fst (dset es m (VStr a) b)) -> In x (map fst m) \/ x = VStr a).
      { clear. induction m as [|[p q] m IH]; intros x; cbn [dset map fst]; [intros [<-|[]]; now right|].
        destruct (py_eqb es p (VStr a)); cbn [map fst]; [auto|]. intros [<-|H]; [left; now left|]. destruct (IH _ H); [left; now right|now right]. }
      apply S in Hx as [Hx| ->]; [now left|]. right. exists a. split; auto. now left. }
    intros H. apply G in H; [|now right]. destruct H as [[]|H]; auto.
  Qed.

  Lemma skip_name d f nm p : field_skip (c_skip_if_default d) (c_skip_if_none d) f = Ok (Some (nm, p)) ->
    exists s, In s ["skip_if"; "skip_if_false"; "skip_if_default"; "skip_if_none"] /\ nm = mangle (f_name f) s.
  Proof.
    unfold field_skip. intros H. inv_bind H.
    destruct (f_skip_if f); [injection H as <- _; eexists; split; [|reflexivity]; simpl; auto|].
    destruct (f_skip_if_false f); [injection H as <- _; eexists; split; [|reflexivity]; simpl; auto|].
    destruct (flag (f_skip_if_default f) _); [injection H as <- _; eexists; split; [|reflexivity]; simpl; auto|].
    destruct (flag (f_skip_if_none f) _); [injection H as <- _; eexists; split; [|reflexivity]; simpl; auto|discriminate].
  Qed.

  Definition own_fns (fs : fielddef * option (string * skipfn)) : list (string * gfun) :=
    (match snd fs with Some (nm, s) => [(nm, GSkip s)] | None => [] end) ++
    (match f_serializer (fst fs) with
     | Some FDefault => [(mangle (f_name (fst fs)) "serializer", GFun (fun _ => Ok VNone))]
     | Some (FFun g) => [(mangle (f_name (fst fs)) "serializer", GFun g)]
     | None => [] end).

  Lemma own_kidless f : own_level f -> f_flatten f = true ->
    match f_type f with TClass c => Some c | t => match opt_arg t with Some (TClass c) => Some c | _ => None end end = None.
  Proof. intros [E|E] F; [congruence|]. destruct (f_type f); try discriminate; reflexivity. Qed.

  Lemma se_fns_flatless n d fs : shallow d -> sefields d (c_ser_class_var d) = Ok fs ->
    se_fns P n d = Ok (concat (map own_fns fs)).
  Proof.
    intros (_ & CV & _ & FL) E.
    assert (FF : forall x, In x fs -> own_level (fst x)).
    { unfold sefields in E. rewrite CV in E. inv_bind E. rewrite app_nil_r in E. injection E as <-. apply mapM_Ok in Hb.
      intros x Hx. destruct (Forall2_in_r _ _ _ _ Hb Hx) as [f [Hf H]]. inv_bind H. inv_bind H. injection H as <-. now apply FL. }
    destruct n; cbn [se_fns]; rewrite E; cbn [bind];
      rewrite (mapM_all_Ok _ own_fns); try reflexivity;
      intros x Hx; pose proof (own_kidless (fst x) (FF x Hx)) as KL; destruct (f_flatten (fst x)); try reflexivity;
      rewrite (KL eq_refl); reflexivity.
  Qed.

  (** Fields with their skip predicates *)
  Definition skips_of (d : classdef) (f : fielddef) (x : fielddef * option (string * skipfn)) : Prop :=
    fst x = f /\ field_skip (c_skip_if_default d) (c_skip_if_none d) f = Ok (snd x).

  Lemma sefields_flatless d fs : shallow d -> sefields d (c_ser_class_var d) = Ok fs -> Forall2 (skips_of d) (c_fields d) fs.
  Proof.
    intros (_ & CV & _) E. unfold sefields in E. rewrite CV in E. inv_bind E. rewrite app_nil_r in E. injection E as <-.
    apply mapM_Ok in Hb. eapply Forall2_impl; [|exact Hb]. intros f x _ _ H. cbv beta in H. inv_bind H. inv_bind H.
    injection H as <-. split; auto.
  Qed.

  Lemma own_names d f x nm g : skips_of d f x -> In (nm, g) (own_fns x) ->
    exists s, In s sufs /\ nm = mangle (f_name f) s /\
      (s = "serializer" /\ (f_serializer f = Some FDefault /\ g = GFun (fun _ => Ok VNone) \/ exists h, f_serializer f = Some (FFun h) /\ g = GFun h) \/
       s <> "serializer" /\ exists p, g = GSkip p /\ snd x = Some (nm, p)).
  Proof.
    intros [<- H2] Hx. destruct x as [f s]; cbn [fst snd] in *. unfold own_fns in Hx; cbn [fst snd] in Hx.
    apply in_app_or in Hx as [Hx|Hx].
    - destruct s as [[nm' p]|]; [|destruct Hx]. destruct Hx as [Hx|[]]. injection Hx as -> <-.
      destruct (skip_name d f nm p H2) as [s [Hs ->]]. exists s. split; [unfold sufs; simpl in *; intuition|]. split; auto.
      right. split; [simpl in Hs; intuition congruence|]. eauto.
    - exists "serializer". split; [unfold sufs; simpl; auto 10|].
      destruct (f_serializer f) as [[|h]|]; [| |destruct Hx]; destruct Hx as [Hx|[]]; injection Hx as <- <-; split; auto; left; split; eauto.
  Qed.

  Lemma fns_lookup d fs x nm g : shallow d -> Forall2 (skips_of d) (c_fields d) fs -> In x fs -> In (nm, g) (own_fns x) ->
    slookup nm (rev (concat (map own_fns fs))) = Some g.
  Proof.
    intros (_ & _ & ND & _) F Hx Hg.
    destruct (Forall2_in_r _ _ _ _ F Hx) as [f [Hf Sx]].
    apply slookup_functional.
    - rewrite <- in_rev. apply in_concat. exists (own_fns x). split; auto. now apply in_map.
    - intros g' Hg'. rewrite <- in_rev in Hg'. apply in_concat in Hg' as [l [Hl Hg']]. apply in_map_iff in Hl as [y [<- Hy]].
      destruct (Forall2_in_r _ _ _ _ F Hy) as [f' [Hf' Sy]].
      destruct (own_names d f x nm g Sx Hg) as (s & Hs & E & C).
      destruct (own_names d f' y nm g' Sy Hg') as (s' & Hs' & E' & C').
      assert (M : mangle (f_name f) s = mangle (f_name f') s') by congruence.
      destruct (mangle_inj _ _ _ _ Hs Hs' M) as [N ->]. assert (f = f') by (eapply same_field; eauto). subst f'.
      assert (Exy : snd x = snd y) by (destruct Sx as [_ H1], Sy as [_ H2]; congruence).
      destruct C as [[C9 C]|[C0 [p [-> C]]]], C' as [[C9' C']|[C0' [p' [-> C']]]]; try (exfalso; congruence).
      + destruct C as [[C1 ->]|[h [C1 ->]]], C' as [[C1' ->]|[h' [C1' ->]]]; congruence.
      + congruence.
  Qed.

  Lemma run_skip_rule n d f nm p call v : call = run n ->
    field_skip (c_skip_if_default d) (c_skip_if_none d) f = Ok (Some (nm, p)) ->
    drop_rule n d f v = Some (run_skip P call p v).
  Proof.
    intros -> H. unfold field_skip in H. unfold drop_rule. unfold level. fold (flag (f_skip_if_default f) (c_skip_if_default d)).
    fold (flag (f_skip_if_none f) (c_skip_if_none d)).
    inv_bind H. destruct (f_skip_if f); [injection H as _ <-; reflexivity|].
    destruct (f_skip_if_false f); [injection H as _ <-; reflexivity|].
    destruct (flag (f_skip_if_default f) _).
    - injection H as _ <-. unfold dflt. destruct (f_default f) as [[dv|r]|].
      + injection Hb as <-. reflexivity.
      + inv_bind Hb. injection Hb as <-. rewrite Hb0. reflexivity.
      + injection Hb as <-. reflexivity.
    - destruct (flag (f_skip_if_none f) _); [injection H as _ <-; reflexivity|discriminate].
  Qed.

  Lemma no_skip_rule n d f v :
    field_skip (c_skip_if_default d) (c_skip_if_none d) f = Ok None -> drop_rule n d f v = None.
  Proof.
    intros H. unfold field_skip in H. unfold drop_rule. unfold level. fold (flag (f_skip_if_default f) (c_skip_if_default d)).
    fold (flag (f_skip_if_none f) (c_skip_if_none d)).
    inv_bind H. destruct (f_skip_if f); [discriminate|].
    destruct (f_skip_if_false f); [discriminate|].
    destruct (flag (f_skip_if_default f) _); [discriminate|]. destruct (flag (f_skip_if_none f) _); [discriminate|reflexivity].
  Qed.

  Lemma conv_wire d f k : conv W (c_rename_all d) (f_name f) (f_rename f) = Ok k -> wire_name W d f = Some k.
  Proof.
    unfold conv, wire_name. intros H. inv_bind H.
    destruct (f_rename f) as [[|a0 r]|]; [|injection H as <-; reflexivity|]; injection H as <-;
      destruct (c_rename_all d) as [[|b r']|]; try (injection Hb as <-; reflexivity);
      cbn [String.eqb] in Hb; destruct (w_case W _ _); congruence.
  Qed.

  Lemma se_field_one n cfg f parent l : own_level f -> se_field P n cfg f parent = Ok l -> exists e, l = [e].
  Proof.
    intros FL E. rewrite se_field_own in E by exact FL;
      destruct (find_ser P (r_class_ser cfg) (f_type f)), (f_serializer f) as [[|g]|];
      try (injection E as <-; eauto; fail); inv_bind E; injection E as <-; eauto.
  Qed.

  Lemma filter_live d fs : Forall2 (skips_of d) (c_fields d) fs ->
    Forall2 (skips_of d) (filter written (c_fields d)) (filter (fun fs => negb (se_skipped (fst fs))) fs).
  Proof.
    induction 1 as [|f x l l' Hx H IH]; cbn [filter]; [constructor|].
    assert (E : negb (se_skipped (fst x)) = written f).
    { destruct Hx as [-> _]. unfold se_skipped, written. now rewrite negb_orb. }
    rewrite E. destruct (written f); auto.
  Qed.

  Lemma own_target f ts n d b : own_level f -> se_targets P W n (c_rename_all d) b f = Ok ts ->
    if f_flatten f then ts = [TgtFlat] else exists k, ts = [TgtKey k] /\ wire_name W d f = Some k.
  Proof.
    intros OL H. destruct (f_flatten f) eqn:FL.
    - destruct OL as [OL|OL]; [congruence|]. destruct n; cbn [se_targets] in H; rewrite FL in H;
        (destruct (f_type f); try discriminate; cbn [opt_arg] in H; rewrite OL in H; now injection H as <-).
    - destruct n; cbn [se_targets] in H; rewrite FL in H; inv_bind H; inv_bind H; injection H as <-;
        unfold lit in *; match goal with L : (if lit_ok ?q then _ else _) = Ok _ |- _ => destruct (lit_ok q); [|discriminate]; injection L as <- end;
        eexists; split; eauto; eapply conv_wire; eauto.
  Qed.

  (** The mapping of an instance is assembled from the contributions of its fields. *)
  Theorem to_dict_parts n d c attrs ro rc skip x :
    shallow d -> run (S n) (QSe d (VObj c attrs) true ro rc skip) = Ok x ->
    exists ps, x = VMap MDict (fold_left put ps []) /\
      Forall2 (part_of n skip d (ser_value n d true (flag ro (c_reuse d)) (flag rc (c_conv d)) skip (VObj c attrs))) (filter written (c_fields d)) ps.
  Proof.
    intros FD H. cbn [Eval.run step] in H. inv_bind H. inv_bind H. cbn [render_se] in Hb. unfold render_to_dict in Hb.
    inv_bind Hb. rename a1 into fs. pose proof FD as (TR & CV & ND & FL). rewrite TR in Hb. inv_bind Hb. injection Hb as <-. rename a1 into stmts.
    rewrite (se_fns_flatless _ d fs FD Hb1) in Hb0. injection Hb0 as <-.
    pose proof (sefields_flatless d fs FD Hb1) as F. pose proof (filter_live d fs F) as FLV.
    cbn [run_se_body] in H. inv_bind H. injection H as <-. rename a into m. rename Hb into HM.
    apply mapM_Ok in Hb2.
    set (cx := se_ctx P d (concat (map own_fns fs)) (flag ro (c_reuse d)) (flag rc (c_conv d)) skip) in *.
    assert (SUB : forall x, In x (filter (fun fs => negb (se_skipped (fst fs))) fs) -> In x fs) by (intros y Hy; now apply filter_In in Hy).
    assert (SUBF : forall f, In f (filter written (c_fields d)) -> In f (c_fields d)) by (intros y Hy; now apply filter_In in Hy).
    assert (G : exists ps, Forall2 (part_of n skip d (ser_value n d true (flag ro (c_reuse d)) (flag rc (c_conv d)) skip (VObj c attrs))) (filter written (c_fields d)) ps /\
        m = fold_left put ps []).
    2:{ destruct G as [ps [G1 ->]]. exists ps. split; [reflexivity|exact G1]. }
    revert HM. generalize (@nil (pyval * pyval)) as m0. revert stmts Hb2.
    induction FLV as [|f y lf ly Sy FLV IH]; intros stmts HS m0 HM.
    - inversion HS; subst. cbn [foldM] in HM. injection HM as <-. exists []. split; [constructor|reflexivity].
    - inversion HS as [|? st ? sts Hst HS']; subst. cbv beta in Hst. inv_bind Hst. inv_bind Hst. rename a into rhs. rename a0 into ts.
      destruct Sy as [Sy1 Sy2].
      assert (OLf : own_level f) by (apply FL, SUBF; now left).
      rewrite Sy1 in Hb, Hb0. destruct (se_field_one _ _ _ _ _ OLf Hb) as [e ->]. injection Hst as <-.
      pose proof (own_target f ts _ d _ OLf Hb0) as HT.
      cbn [foldM] in HM. inv_bind HM. unfold run_sstmt in Hb2. cbn [s_rhs s_targets s_skip mapM] in Hb2.
      rename a into m1. destruct (eval P W (run n) cx [("obj", VObj c attrs)] e) as [v|?|] eqn:Hb3; cbn [bind] in Hb2; try discriminate.
      cbn [tuple_of] in Hb2.
      destruct (IH (fun x Hx => SUB x (or_intror Hx)) (fun x Hx => SUBF x (or_intror Hx)) sts HS' m1 HM) as [ps [O1 O2]].
      assert (SV : ser_value n d true (flag ro (c_reuse d)) (flag rc (c_conv d)) skip (VObj c attrs) f = Ok v).
      { unfold ser_value. rewrite (se_fns_flatless _ d fs FD Hb1). cbn [bind]. rewrite Hb. cbn [bind mapM]. fold cx. rewrite Hb3. reflexivity. }
      assert (PT : exists p, part_of n skip d (ser_value n d true (flag ro (c_reuse d)) (flag rc (c_conv d)) skip (VObj c attrs)) f p /\ m1 = put m0 p).
      { unfold part_of. destruct (f_flatten f).
        - subst ts. unfold extra_entries. destruct (truthy es v) eqn:TV.
          + inv_bind Hb2. injection Hb2 as <-. destruct v; try discriminate. injection Hb4 as ->.
            eexists (Extra _). split; [|reflexivity]. eexists. split; [exact SV|]. eexists. rewrite TV. split; [eexists; reflexivity|reflexivity].
          + injection Hb2 as <-. exists (Extra []). split; [|reflexivity]. exists v. split; [exact SV|]. exists []. now rewrite TV.
        - destruct HT as [k [-> WN]].
          assert (CT : exists out, contributes n skip d f k v out /\ m1 = fold_left (fun m kv => dset es m (VStr (fst kv)) (snd kv)) out m0).
          { unfold contributes. destruct (snd y) as [[nm p]|] eqn:SY; cbn [option_map fst] in Hb2.
            - assert (LK : fn_lookup cx nm = Some (GSkip p)).
              { unfold fn_lookup, cx. cbn [se_ctx x_fns]. apply (fns_lookup d fs y); auto; [apply SUB; now left|].
                unfold own_fns. rewrite SY. now left. }
              rewrite LK in Hb2. rewrite (run_skip_rule n d f nm p (run n) v eq_refl Sy2). inv_bind Hb2. rename a into b.
              exists (if b then [] else [(k, v)]). split; [eauto|].
              destruct b; injection Hb2 as <-; reflexivity.
            - rewrite (no_skip_rule n d f v Sy2). eexists; split; [reflexivity|].
              change (x_skip cx) with skip in Hb2.
              destruct skip; cbn [andb]; [destruct v; injection Hb2 as <-; reflexivity|injection Hb2 as <-; reflexivity]. }
          destruct CT as [out [CT ->]]. exists (Own out). split; [|reflexivity]. exists v. split; [exact SV|]. eauto. }
      destruct PT as [p [PT ->]]. exists (p :: ps). split; [constructor; auto|]. exact O2.
  Qed.

  (** Without flattened dict all parts are assignments. *)
  Theorem to_dict_entries n d c attrs ro rc skip x :
    flatless d -> run (S n) (QSe d (VObj c attrs) true ro rc skip) = Ok x ->
    exists outs, x = VMap MDict (assigned (concat outs)) /\
      Forall2 (fun f out => exists k v,
        wire_name W d f = Some k /\
        ser_value n d true (flag ro (c_reuse d)) (flag rc (c_conv d)) skip (VObj c attrs) f = Ok v /\
        contributes n skip d f k v out) (filter written (c_fields d)) outs.
  Proof.
    intros FD H. apply to_dict_parts in H; [|now apply flatless_shallow]. destruct H as [ps [-> F]]. unfold assigned.
    destruct FD as (_ & _ & _ & FL).
    assert (SUBF : forall f, In f (filter written (c_fields d)) -> f_flatten f = false) by (intros y Hy; apply filter_In in Hy as [Hy _]; auto).
    revert SUBF. generalize (@nil (pyval * pyval)) as m0. induction F as [|f p lf ps Hp F IH]; intros m0 SUBF.
    - exists []. split; [reflexivity|constructor].
    - destruct Hp as (v & SV & Hp). rewrite SUBF in Hp by now left. destruct Hp as (k & out & WN & CT & ->).
      cbn [fold_left put].
      destruct (IH (fold_left (fun m kv => dset es m (VStr (fst kv)) (snd kv)) out m0) (fun x Hx => SUBF x (or_intror Hx))) as [outs [E G]].
      exists (out :: outs). cbn [concat]. rewrite fold_left_app. split; [exact E|]. constructor; eauto 6.
  Qed.

  (** ** Calls of the public functions *)

  (** The class argument of to_dict is not a union. *)
  Definition plain_arg (cc : option (tagging * pytype)) : Prop :=
    match cc with Some (_, t) => is_union (unalias t) = false | None => True end.

  Lemma to_obj_eq n c attrs nm ro rc skip cc :
    first_ser P (VObj c attrs) = None -> plain_arg cc ->
    run (S n) (QToObj (VObj c attrs) nm ro rc skip cc) =
    catch (d <- of_option XAttr (get_class P c) ;; run n (QSe d (VObj c attrs) nm ro rc skip)) (fun e => Raise (XSerde (MWrap e))).
  Proof.
    intros FS NU. cbn [Eval.run step]. unfold to_obj_body. rewrite FS.
    destruct cc as [[tg t]|]; [|reflexivity]. cbn [option_map fst snd]. cbn [plain_arg] in NU.
    destruct (unalias t); try reflexivity. discriminate.
  Qed.

  Lemma to_obj_inv n c d attrs nm ro rc skip cc x :
    first_ser P (VObj c attrs) = None -> plain_arg cc -> get_class P c = Some d ->
    run (S n) (QToObj (VObj c attrs) nm ro rc skip cc) = Ok x -> run n (QSe d (VObj c attrs) nm ro rc skip) = Ok x.
  Proof.
    intros FS NU Hd. rewrite to_obj_eq, Hd by assumption. cbn [of_option bind]. destruct (run n _); cbn [catch]; congruence.
  Qed.

  Lemma se_ok_S n q x : run n q = Ok x -> exists m, n = S m.
  Proof. destruct n; [discriminate|eauto]. Qed.

  (** ** C03 *)

  (** No skip option is in effect for the field. *)
  Definition no_rule (d : classdef) (f : fielddef) : Prop :=
    f_skip_if f = None /\ f_skip_if_false f = false /\
    level (f_skip_if_default f) (c_skip_if_default d) = false /\ level (f_skip_if_none f) (c_skip_if_none d) = false.

  Lemma no_rule_drop n d f v : no_rule d f -> drop_rule n d f v = None.
  Proof. intros (A & B & C & D). unfold drop_rule. now rewrite A, B, C, D. Qed.

  Theorem C03_keys n c d attrs cc ro rc x :
    get_class P c = Some d -> flatless d -> (forall f, In f (c_fields d) -> written f = true -> no_rule d f) ->
    first_ser P (VObj c attrs) = None -> plain_arg cc ->
    to_dict P W K n (VObj c attrs) cc ro rc false = Ok x ->
    exists kvs ks, x = VMap MDict kvs /\
      map (wire_name W d) (filter written (c_fields d)) = map Some ks /\
      (NoDup ks -> map fst kvs = map VStr ks) /\
      (forall y, In y (map fst kvs) <-> exists k, y = VStr k /\ In k ks).
  Proof.
    intros Hd FD NR FS PA H. unfold to_dict in H. destruct (se_ok_S _ _ _ H) as [m ->].
    apply (to_obj_inv _ _ d) in H; auto. destruct (se_ok_S _ _ _ H) as [m' ->].
    apply to_dict_entries in H; [|assumption]. destruct H as [outs [-> F]].
    assert (G : exists vs, concat outs = vs /\ map (wire_name W d) (filter written (c_fields d)) = map (fun kv : string * pyval => Some (fst kv)) vs).
    { eexists; split; [reflexivity|]. assert (NR' : forall f, In f (filter written (c_fields d)) -> no_rule d f) by (intros f Hf; apply filter_In in Hf as [? ?]; auto).
      clear NR. induction F as [|f out lf lo Hf F IH]; [reflexivity|]. destruct Hf as (k & v & WN & _ & CT).
      unfold contributes in CT. rewrite no_rule_drop in CT by (apply NR'; now left). cbn [andb] in CT. subst out.
      cbn [map concat app fst]. rewrite WN, IH; [reflexivity|]. intros; apply NR'; now right. }
    destruct G as [vs [-> G]]. exists (assigned vs), (map fst vs). split; [reflexivity|]. split; [now rewrite map_map|].
    split.
    - intros ND. rewrite assigned_nodup by exact ND. rewrite !map_map. reflexivity.
    - intros y. split.
      + apply key_assigned.
      + intros [k [-> Hk]].
        assert (L : dget es (assigned vs) (VStr k) <> None).
        { rewrite dget_assigned. intros L. apply slookup_None in L. apply L. rewrite map_rev, <- in_rev. exact Hk. }
        clear - L Hk.
        assert (ST : forall x, In x (map fst (assigned vs)) -> exists k, x = VStr k) by (intros x Hx; destruct (key_assigned _ _ Hx) as [k' [-> _]]; eauto).
        revert ST L. generalize (assigned vs) as m. induction m as [|[a b] m IH]; intros ST L; [now elim L|].
        cbn [map fst] in *. destruct (ST a (or_introl eq_refl)) as [kk Ek]. subst a. cbn [dget] in L. rewrite py_eqb_str in L.
        destruct (String.eqb_spec kk k) as [Ek|Ek]; [subst kk; now left|]. right. apply IH; auto. intros x Hx; apply ST; now right.
  Qed.

  (** ** C05, C06, serialization half of C12 *)

  Lemma contributes_one n skip d f k v out : contributes n skip d f k v out -> out = [] \/ out = [(k, v)].
  Proof.
    unfold contributes. destruct (drop_rule n d f v); [intros [b [_ ->]]; destruct b; auto|].
    intros ->. destruct (skip && is_vnone v); auto.
  Qed.

  Lemma dget_str_trans l a k : dmem es l a = true -> py_eqb es a (VStr k) = true -> dget es l (VStr k) <> None.
  Proof.
    unfold dmem. intros H E. induction l as [|[p q] l IH]; [discriminate|]. cbn [dget] in *.
    destruct (py_eqb es p (VStr k)) eqn:EP; [discriminate|]. destruct (py_eqb es p a) eqn:PA; [|auto].
    exfalso. clear IH H. rewrite <- py_eqb_str_sym in E, EP. unfold py_eqb in E, EP. cbn [scalar] in E, EP.
    destruct (scalar es a) as [[?|?|t]|] eqn:SA; try discriminate. cbn [scal_eqb] in E. apply String.eqb_eq in E. subst t.
    assert (G : py_eqb es p a = match scalar es p with Some x => scal_eqb x (SS k) | None => false end).
    { destruct p; cbn [py_eqb]; rewrite SA; try reflexivity; now destruct (scalar es _). }
    rewrite G in PA. destruct (scalar es p) as [[?|?|t]|]; try discriminate. cbn [scal_eqb] in PA, EP.
    rewrite String.eqb_sym in EP. congruence.
  Qed.

  Lemma dget_put m p k : dget es (put m p) (VStr k) =
    match p with
    | Own l => match slookup k (rev l) with Some v => Some v | None => dget es m (VStr k) end
    | Extra l => match dget es m (VStr k) with Some v => Some v | None => dget es l (VStr k) end
    end.
  Proof.
    destruct p as [l|l]; cbn [put]; revert m; induction l as [|[a b] l IH]; intros m; cbn [fold_left rev fst snd].
    - reflexivity.
    - rewrite IH, dget_dset_str, slookup_app. destruct (slookup k (rev l)); [reflexivity|]. cbn [slookup]. now destruct (String.eqb a k).
    - now destruct (dget es m (VStr k)).
    - rewrite IH. cbn [dget]. destruct (dmem es m a) eqn:D.
      + destruct (dget es m (VStr k)) eqn:G; [reflexivity|]. destruct (py_eqb es a (VStr k)) eqn:E; [|reflexivity].
        exfalso. eapply dget_str_trans; eauto.
      + rewrite dget_app. destruct (dget es m (VStr k)); [reflexivity|]. cbn [dget]. now destruct (py_eqb es a (VStr k)).
  Qed.

  (** [skey kvs k] comes from a flattened dict, if there is an entry at all *)
  Definition left_out (d : classdef) (ser : fielddef -> res pyval) (kvs : list (pyval * pyval)) (k : string) : Prop :=
    skey P kvs k = None \/
    exists g m l, In g (c_fields d) /\ written g = true /\ f_flatten g = true /\ ser g = Ok (VMap m l) /\ skey P l k = skey P kvs k.

  Lemma left_out_flatless d ser kvs k : flatless d -> left_out d ser kvs k -> skey P kvs k = None.
  Proof. intros (_ & _ & _ & FL) [H|(g & _ & _ & Hg & _ & Fg & _)]; [exact H|]. rewrite FL in Fg by exact Hg. discriminate. Qed.

  Definition declared_in (l : list fielddef) : list fielddef := filter (fun f => negb (f_flatten f)) l.

  Lemma declared_written d : declared d = declared_in (filter written (c_fields d)).
  Proof.
    unfold declared, declared_in. induction (c_fields d) as [|f l IH]; [reflexivity|]. cbn [filter].
    destruct (written f); cbn [andb filter]; rewrite IH; reflexivity.
  Qed.

  Lemma declared_flatless d : flatless d -> declared d = filter written (c_fields d).
  Proof.
    intros (_ & _ & _ & FL). unfold declared. revert FL. induction (c_fields d) as [|f l IH]; intros FL; [reflexivity|]. cbn [filter].
    rewrite FL, andb_true_r by now left. rewrite IH by (intros; apply FL; now right). reflexivity.
  Qed.

  Definition extras (ps : list part) : list part := filter (fun p => match p with Extra _ => true | Own _ => false end) ps.

  Lemma put_ext k ps : forall m m', dget es m (VStr k) = dget es m' (VStr k) ->
    dget es (fold_left put ps m) (VStr k) = dget es (fold_left put ps m') (VStr k).
  Proof.
    induction ps as [|p ps IH]; intros m m' E; cbn [fold_left]; [exact E|]. apply IH. rewrite !dget_put, E. reflexivity.
  Qed.

  Lemma put_extras_keep k ps : forall m v, dget es m (VStr k) = Some v -> dget es (fold_left put (extras ps) m) (VStr k) = Some v.
  Proof.
    induction ps as [|[l|l] ps IH]; intros m v E; cbn [extras filter fold_left]; [exact E|now apply IH|].
    apply IH. now rewrite dget_put, E.
  Qed.

  Lemma own_other k n d skip f k' v out m : contributes n skip d f k' v out -> k' <> k ->
    dget es (put m (Own out)) (VStr k) = dget es m (VStr k).
  Proof.
    intros C N. rewrite dget_put. destruct (contributes_one _ _ _ _ _ _ _ C) as [-> | ->]; [reflexivity|].
    cbn [rev app slookup]. destruct (String.eqb_spec k' k); [contradiction|reflexivity].
  Qed.

  (** A key that is not the wire name of a declared field is looked up in the flattened dicts. *)
  Lemma lookup_extra n d skip ser k lf ps : Forall2 (part_of n skip d ser) lf ps ->
    ~ In (Some k) (map (wire_name W d) (declared_in lf)) ->
    forall m, dget es (fold_left put ps m) (VStr k) = dget es (fold_left put (extras ps) m) (VStr k).
  Proof.
    induction 1 as [|f p lf ps Hp F IH]; intros NI m; [reflexivity|]. cbn [fold_left].
    destruct Hp as (v & _ & Hp). unfold declared_in in NI. cbn [filter] in NI. fold (declared_in lf) in NI. destruct (f_flatten f); cbn [negb map] in NI.
    - destruct Hp as (l & _ & ->). cbn [extras filter fold_left]. now apply IH.
    - destruct Hp as (k' & out & WN & CT & ->). cbn [extras filter]. rewrite IH by (intros H; apply NI; now right).
      apply put_ext. eapply own_other; [exact CT|]. intros ->. apply NI. now left.
  Qed.

  Lemma lookup_declared n d skip ser k f lf ps : Forall2 (part_of n skip d ser) lf ps ->
    NoDup (map (wire_name W d) (declared_in lf)) -> In f (declared_in lf) -> wire_name W d f = Some k ->
    forall m, exists v out, ser f = Ok v /\ contributes n skip d f k v out /\
      dget es (fold_left put ps m) (VStr k) = match out with (_, y) :: _ => Some y | [] => dget es (fold_left put (extras ps) m) (VStr k) end.
  Proof.
    intros F. induction F as [|g p lf ps Hp F IH]; intros ND Hf WN m; [destruct Hf|]. cbn [fold_left].
    destruct Hp as (v & SV & Hp). unfold declared_in in ND, Hf. cbn [filter] in ND, Hf. fold (declared_in lf) in ND, Hf.
    destruct (f_flatten g); cbn [negb map] in ND, Hf.
    - destruct Hp as (l & _ & ->). cbn [extras filter fold_left]. now apply IH.
    - destruct Hp as (k' & out & WG & CT & ->). cbn [extras filter]. inversion ND as [|? ? N1 N2]; subst. destruct Hf as [->|Hf].
      + assert (k' = k) by congruence. subst k'. exists v, out. split; [exact SV|]. split; [exact CT|].
        rewrite (lookup_extra _ _ _ _ _ _ _ F) by (now rewrite <- WN).
        destruct (contributes_one _ _ _ _ _ _ _ CT) as [-> | ->]; [reflexivity|].
        apply put_extras_keep. rewrite dget_put. cbn [rev app slookup]. now rewrite String.eqb_refl.
      + destruct (IH N2 Hf WN (put m (Own out))) as (v' & out' & S' & C' & L). exists v', out'. split; [exact S'|]. split; [exact C'|].
        rewrite L. destruct out' as [|[? ?] ?]; [|reflexivity]. apply put_ext. eapply own_other; [exact CT|].
        intros ->. apply N1. rewrite WG, <- WN. now apply in_map.
  Qed.

  Lemma extras_source n d skip ser k lf ps : Forall2 (part_of n skip d ser) lf ps ->
    forall m, dget es m (VStr k) = None ->
    dget es (fold_left put (extras ps) m) (VStr k) = None \/
    exists g mk l, In g lf /\ f_flatten g = true /\ ser g = Ok (VMap mk l) /\ dget es l (VStr k) = dget es (fold_left put (extras ps) m) (VStr k).
  Proof.
    induction 1 as [|f p lf ps Hp F IH]; intros m E; [now left|].
    destruct Hp as (v & SV & Hp). destruct (f_flatten f) eqn:FL.
    - destruct Hp as (l & X & ->). cbn [extras filter fold_left]. destruct (dget es l (VStr k)) as [y|] eqn:L.
      + right. unfold extra_entries in X. destruct (truthy es v); [|subst l; discriminate]. destruct X as [mk ->].
        exists f, mk, l. split; [now left|]. split; [exact FL|]. split; [exact SV|]. rewrite L. symmetry. apply put_extras_keep. now rewrite dget_put, E.
      + destruct (IH (put m (Extra l))) as [H|(g & mk & l' & Hg & H)]; [now rewrite dget_put, E|now left|].
        right. exists g, mk, l'. split; [now right|exact H].
    - destruct Hp as (k' & out & WG & CT & ->). cbn [extras filter].
      destruct (IH m E) as [H|(g & mk & l' & Hg & H)]; [now left|]. right. exists g, mk, l'. split; [now right|exact H].
  Qed.

  (** Declared fields: written unless the predicate that applies says otherwise, also if a flattened dict has an
      entry with the same key. *)
  Theorem C05_skip_predicates_partial n c d attrs cc ro rc skip x f k :
    get_class P c = Some d -> shallow d -> NoDup (map (wire_name W d) (declared d)) ->
    first_ser P (VObj c attrs) = None -> plain_arg cc ->
    to_dict P W K (S (S n)) (VObj c attrs) cc ro rc skip = Ok x ->
    In f (declared d) -> wire_name W d f = Some k ->
    let ser := ser_value n d true (flag ro (c_reuse d)) (flag rc (c_conv d)) skip (VObj c attrs) in
    exists kvs v, x = VMap MDict kvs /\ ser f = Ok v /\
      match drop_rule n d f v with
      | Some r => exists b : bool, r = Ok b /\ if b then left_out d ser kvs k else skey P kvs k = Some v
      | None => if skip && is_vnone v then left_out d ser kvs k else skey P kvs k = Some v
      end.
  Proof.
    intros Hd FD ND FS PA H Hf WN ser. unfold to_dict in H. apply (to_obj_inv _ _ d) in H; auto.
    apply to_dict_parts in H; [|assumption]. destruct H as [ps [-> F]]. fold ser in F. rewrite declared_written in ND, Hf.
    destruct (lookup_declared n d skip ser k f _ ps F ND Hf WN []) as (v & out & S & C & L).
    exists (fold_left put ps []), v. split; [reflexivity|]. split; [exact S|].
    assert (LO : out = [] -> left_out d ser (fold_left put ps []) k).
    { intros ->. unfold left_out, skey. destruct (extras_source _ _ _ _ k _ _ F [] eq_refl) as [E|(g & m & l & Hg & Fg & Sg & E)].
      - left. now rewrite L.
      - right. apply filter_In in Hg as [Hg Wg]. exists g, m, l. repeat split; auto. now rewrite L. }
    unfold contributes in C. destruct (drop_rule n d f v).
    - destruct C as [b [-> ->]]. exists b. split; auto. destruct b; [now apply LO|exact L].
    - subst out. destruct (skip && is_vnone v); [now apply LO|exact L].
  Qed.

  (** A field without skip option, under skip_none=True *)
  Theorem C06_skip_none_partial n c d attrs cc ro rc x f k :
    get_class P c = Some d -> shallow d -> NoDup (map (wire_name W d) (declared d)) ->
    first_ser P (VObj c attrs) = None -> plain_arg cc ->
    to_dict P W K (S (S n)) (VObj c attrs) cc ro rc true = Ok x ->
    In f (declared d) -> no_rule d f -> wire_name W d f = Some k ->
    let ser := ser_value n d true (flag ro (c_reuse d)) (flag rc (c_conv d)) true (VObj c attrs) in
    exists kvs v, x = VMap MDict kvs /\ ser f = Ok v /\
      (v = VNone -> left_out d ser kvs k) /\ (v <> VNone -> skey P kvs k = Some v).
  Proof.
    intros Hd FD ND FS PA H Hf NR WN ser.
    destruct (C05_skip_predicates_partial n c d attrs cc ro rc true x f k Hd FD ND FS PA H Hf WN) as (kvs & v & -> & S & C).
    exists kvs, v. split; auto. split; auto. rewrite no_rule_drop in C by exact NR. cbn [andb] in C.
    split; [intros ->; exact C|]. destruct v; auto; contradiction.
  Qed.

  (** With one flattened dict [f] the mapping has an entry for every declared field that is not dropped, and all
      other keys are those of the flattened dict. *)
  Theorem C12_precedence_partial n c d attrs cc ro rc skip x f :
    get_class P c = Some d -> shallow d -> NoDup (map (wire_name W d) (declared d)) ->
    first_ser P (VObj c attrs) = None -> plain_arg cc ->
    to_dict P W K (S (S n)) (VObj c attrs) cc ro rc skip = Ok x ->
    In f (c_fields d) -> written f = true -> f_flatten f = true ->
    (forall g, In g (c_fields d) -> written g = true -> f_flatten g = true -> g = f) ->
    let ser := ser_value n d true (flag ro (c_reuse d)) (flag rc (c_conv d)) skip (VObj c attrs) in
    exists kvs v l, x = VMap MDict kvs /\ ser f = Ok v /\ extra_entries v l /\
      (forall g k, In g (declared d) -> wire_name W d g = Some k ->
         exists vg out, ser g = Ok vg /\ contributes n skip d g k vg out /\
           skey P kvs k = match out with (_, y) :: _ => Some y | [] => skey P l k end) /\
      (forall k, ~ In (Some k) (map (wire_name W d) (declared d)) -> skey P kvs k = skey P l k).
  Proof.
    intros Hd FD ND FS PA H Hf Wf FLf U ser. unfold to_dict in H. apply (to_obj_inv _ _ d) in H; auto.
    apply to_dict_parts in H; [|assumption]. destruct H as [ps [-> F]]. fold ser in F. rewrite declared_written in *.
    assert (EX : exists v l, ser f = Ok v /\ extra_entries v l /\ extras ps = [Extra l]).
    { pose proof FD as (_ & _ & NDN & _). 
      assert (NF : NoDup (filter written (c_fields d))) by (apply NoDup_filter; eapply NoDup_map_inv; exact NDN).
      assert (Hf' : In f (filter written (c_fields d))) by (apply filter_In; auto).
      assert (U' : forall g, In g (filter written (c_fields d)) -> f_flatten g = true -> g = f) by (intros g Hg; apply filter_In in Hg as [? ?]; auto).
      clear - F NF Hf' U' FLf.
      assert (NONE : forall lf ps, Forall2 (part_of n skip d ser) lf ps -> (forall g, In g lf -> f_flatten g = false) -> extras ps = []).
      { induction 1 as [|g p lf qs Hp F' IH]; intros A; [reflexivity|]. destruct Hp as (v & _ & Hp). rewrite A in Hp by now left.
        destruct Hp as (k & out & _ & _ & ->). cbn [extras filter]. apply IH. intros; apply A; now right. }
      induction F as [|g p lf ps Hp F IH]; [destruct Hf'|]. inversion NF as [|? ? N1 N2]; subst. destruct Hp as (v & SV & Hp).
      destruct Hf' as [->|Hf'].
      - rewrite FLf in Hp. destruct Hp as (l & X & ->). exists v, l. split; [exact SV|]. split; [exact X|]. cbn [extras filter]. f_equal.
        eapply NONE; [exact F|]. intros h Hh. destruct (f_flatten h) eqn:Fh; [|reflexivity]. exfalso. apply N1.
        rewrite <- (U' h (or_intror Hh) Fh). exact Hh.
      - assert (Fg : f_flatten g = false).
        { destruct (f_flatten g) eqn:Fg; [|reflexivity]. exfalso. apply N1. now rewrite (U' g (or_introl eq_refl) Fg). }
        rewrite Fg in Hp. destruct Hp as (k & out & _ & _ & ->). cbn [extras filter]. apply IH; auto. intros h Hh. apply U'. now right. }
    destruct EX as (v & l & SV & X & EX). exists (fold_left put ps []), v, l. split; [reflexivity|]. split; [exact SV|]. split; [exact X|].
    assert (L1 : forall k, dget es (fold_left put [Extra l] []) (VStr k) = skey P l k).
    { intros k. cbn [fold_left]. rewrite dget_put. reflexivity. }
    split.
    - intros g k Hg WG. destruct (lookup_declared n d skip ser k g _ ps F ND Hg WG []) as (vg & out & S & C & L).
      exists vg, out. split; [exact S|]. split; [exact C|]. unfold skey at 1. rewrite L, EX, L1. reflexivity.
    - intros k NI. unfold skey at 1. rewrite (lookup_extra _ _ _ _ _ _ _ F NI), EX. apply L1.
  Qed.

  Lemma eval_skip call cx b e rho : okx (fun _ => False) (fun _ => True) False e -> eval P W call cx rho e = eval P W call (set_skip b cx) rho e.
  Proof.
    intros O. eapply (eval_okx P W call cx b (fun _ => False) (fun _ => True) False (fun r r' => r = r')); eauto.
    - intros [].
    - intros ? ? ? -> _. reflexivity.
    - intros ? ? ? ->. reflexivity.
    - intros ? ? ? ->. reflexivity.
    - intros ? ? ? [].
  Qed.

  (** Without nested objects the conversions do not depend on skip_none ... *)
  Lemma ser_value_skip n d nm ro rc b b' obj f :
    f_flatten f = false -> nocall (f_type f) = true -> ser_value n d nm ro rc b obj f = ser_value n d nm ro rc b' obj f.
  Proof.
    intros FL NC. unfold ser_value. destruct (se_fns P (class_fuel P) d) as [fns| |]; cbn [bind]; try reflexivity.
    destruct (se_field P (class_fuel P) (se_cfg d nm) f obj_var) as [l| |] eqn:E; cbn [bind]; try reflexivity.
    destruct (se_field_okx P (fun _ => False) (fun _ => True) False I I _ _ _ obj_var _ (or_introl FL) (or_intror NC) (or_intror (or_intror I)) E) as [e [-> O]].
    cbn [mapM].
    rewrite (eval_skip (run n) (se_ctx P d fns ro rc b) b' e _ O).
    reflexivity.
  Qed.

  (** ... and skip_none=True just removes the entries that are None. *)
  Theorem C06_other_entries_partial n c d attrs cc ro rc kvs :
    get_class P c = Some d -> flatless d -> NoDup (map (wire_name W d) (filter written (c_fields d))) ->
    (forall f, In f (c_fields d) -> written f = true -> no_rule d f /\ nocall (f_type f) = true) ->
    first_ser P (VObj c attrs) = None -> plain_arg cc ->
    to_dict P W K n (VObj c attrs) cc ro rc false = Ok (VMap MDict kvs) ->
    to_dict P W K n (VObj c attrs) cc ro rc true = Ok (VMap MDict (filter (fun kv => negb (is_vnone (snd kv))) kvs)).
  Proof.
    intros Hd FD ND NR FS PA H. unfold to_dict in *. destruct (se_ok_S _ _ _ H) as [m ->].
    apply (to_obj_inv _ _ d) in H; auto. rewrite to_obj_eq, Hd by assumption. cbn [of_option bind].
    match goal with |- catch ?r _ = Ok ?y => assert (E : r = Ok y); [|now rewrite E] end.
    destruct (se_ok_S _ _ _ H) as [m' ->].
    cbn [Eval.run step] in H |- *. inv_bind H. inv_bind H. rewrite Hb, Hb0. cbn [bind].
    cbn [render_se] in Hb. unfold render_to_dict in Hb.
    inv_bind Hb. rename a1 into fs. pose proof FD as (TR & CV & NDN & FL). rewrite TR in Hb. inv_bind Hb. injection Hb as <-. rename a1 into stmts.
    pose proof (sefields_flatless d fs (flatless_shallow d FD) Hb1) as F. pose proof (filter_live d fs F) as FLV.
    cbn [run_se_body] in H |- *. inv_bind H. injection H as <-. rename a into mm. rename Hb into HM.
    apply mapM_Ok in Hb2.
    set (cx := se_ctx P d a0 (flag ro (c_reuse d)) (flag rc (c_conv d)) false) in *.
    change (se_ctx P d a0 (flag ro (c_reuse d)) (flag rc (c_conv d)) true) with (set_skip true cx).
    assert (SUBF : forall f, In f (filter written (c_fields d)) -> In f (c_fields d) /\ written f = true) by (intros y Hy; now apply filter_In in Hy).
    set (flt := filter (fun kv : pyval * pyval => negb (is_vnone (snd kv)))).
    assert (G : forall lf ly, Forall2 (skips_of d) lf ly -> (forall f, In f lf -> In f (c_fields d) /\ written f = true) -> NoDup (map (wire_name W d) lf) ->
      forall stmts, Forall2 (fun a b =>
         (rhs <- se_field P (class_fuel P) (se_cfg d true) (fst a) obj_var ;;
          ts <- se_targets P W (class_fuel P) (c_rename_all d) (c_ser_class_var d) (fst a) ;;
          match rhs with [] => Raise XSyntax | _ => Ok (mkSstmt rhs ts (option_map fst (snd a))) end) = Ok b) ly stmts ->
      forall m0, (forall f k, In f lf -> wire_name W d f = Some k -> dget es m0 (VStr k) = None) -> (forall x, In x (map fst m0) -> exists k, x = VStr k) ->
      foldM (run_sstmt P W (run m') cx [("obj", VObj c attrs)]) stmts m0 = Ok mm ->
      foldM (run_sstmt P W (run m') (set_skip true cx) [("obj", VObj c attrs)]) stmts (flt m0) = Ok (flt mm)).
    { clear - NR FL CV. induction 1 as [|f y lf ly Sy FLV IH]; intros SUBF ND stmts HS m0 M0 MS HM.
      - inversion HS; subst. cbn [foldM] in HM |- *. now injection HM as <-.
      - inversion HS as [|? st ? sts Hst HS']; subst. cbv beta in Hst. inv_bind Hst. inv_bind Hst. rename a into rhs. rename a1 into ts.
        destruct Sy as [Sy1 Sy2]. destruct (SUBF f (or_introl eq_refl)) as [Hf Wf].
        assert (FLf : f_flatten f = false) by (now apply FL). destruct (NR f Hf Wf) as [NRf NCf].
        rewrite Sy1 in Hb, Hb0.
        destruct (se_field_okx P (fun _ => False) (fun _ => True) False I I _ _ _ obj_var _ (or_introl FLf) (or_intror NCf) (or_intror (or_intror I)) Hb) as [e [-> O]].
        injection Hst as <-.
        assert (HT : exists k, ts = [TgtKey k] /\ wire_name W d f = Some k).
        { destruct (class_fuel P); cbn [se_targets] in Hb0; rewrite FLf in Hb0; inv_bind Hb0; inv_bind Hb0; injection Hb0 as <-;
            unfold lit in *; match goal with L : (if lit_ok ?q then _ else _) = Ok _ |- _ => destruct (lit_ok q); [|discriminate]; injection L as <- end;
            eexists; split; eauto; eapply conv_wire; eauto. }
        destruct HT as [k [-> WN]].
        assert (SN : snd y = None).
        { destruct (snd y) as [[nm p]|] eqn:SY; auto. pose proof (run_skip_rule 0 d f nm p _ VNone eq_refl Sy2) as R.
          rewrite no_rule_drop in R by exact NRf. discriminate. }
        rewrite SN in *. cbn [foldM] in HM |- *. inv_bind HM. rename a into m1.
        unfold run_sstmt in Hb1 |- * at 1. cbn [s_rhs s_targets s_skip mapM option_map] in Hb1 |- *.
        rewrite <- (eval_skip (run m') cx true e _ O).
        destruct (eval P W (run m') cx [("obj", VObj c attrs)] e) as [v|?|]; cbn [bind] in Hb1 |- *; try discriminate.
        cbn [tuple_of] in *. change (x_skip cx) with false in Hb1. cbn [assign assign1 fst snd] in Hb1. injection Hb1 as <-.
        change (x_skip (set_skip true cx)) with true. cbv iota.
        assert (D0 : dget es m0 (VStr k) = None) by (eapply M0; [now left|exact WN]).
        rewrite dset_fresh in HM by exact D0.
        assert (E : match v with VNone => Ok (flt m0) | _ => assign P [TgtKey k] v (flt m0) end = Ok (flt (m0 ++ [(VStr k, v)]))).
        { unfold flt. rewrite filter_app. fold flt. cbn [assign assign1 fst snd].
          assert (D1 : dget es (flt m0) (VStr k) = None).
          { clear - D0. induction m0 as [|[p q] m IH]; [reflexivity|]. cbn [dget] in D0. destruct (py_eqb es p (VStr k)) eqn:Q; [discriminate|].
            unfold flt. cbn [filter snd]. destruct (negb (is_vnone q)); [cbn [dget]; rewrite Q|]; now apply IH. }
          rewrite dset_fresh by exact D1. destruct v; cbn [filter snd is_vnone negb]; try reflexivity. now rewrite app_nil_r. }
        rewrite E. cbn [bind].
        cbn [map] in ND. inversion ND as [|? ? N1 N2]; subst. eapply IH; eauto.
        + intros g Hg. apply SUBF. now right.
        + intros g kg Hg WG. rewrite dget_app, (M0 g kg (or_intror Hg) WG). cbn [dget]. rewrite py_eqb_str.
          destruct (String.eqb_spec k kg) as [->|]; [|reflexivity]. exfalso. apply N1. rewrite WN, <- WG. now apply in_map.
        + intros x Hx. rewrite map_app in Hx. apply in_app_or in Hx as [Hx|[Hx|[]]]; [auto|]. exists k. symmetry. exact Hx. }
    pose proof (G _ _ FLV SUBF ND stmts Hb2 [] ltac:(reflexivity) ltac:(intros ? []) HM) as E.
    change (flt []) with (@nil (pyval * pyval)) in E. now rewrite E.
  Qed.

  (** ** C34, serialization *)

  Lemma ser_value_fun n d nm ro rc skip c attrs f g v :
    shallow d -> In f (c_fields d) -> f_serializer f = Some (FFun g) ->
    ser_value n d nm ro rc skip (VObj c attrs) f = Ok v ->
    exists a, getattr P (VObj c attrs) (f_name f) = Ok a /\ g a = Ok v.
  Proof.
    intros FD Hf HS H. unfold ser_value in H. inv_bind H. rename a into fns, Hb into Hfns.
    assert (HF : exists fs, sefields d (c_ser_class_var d) = Ok fs).
    { destruct (class_fuel P); cbn [se_fns] in Hfns; inv_bind Hfns; eauto. }
    destruct HF as [fs HF]. rewrite (se_fns_flatless _ _ fs FD HF) in Hfns. injection Hfns as <-.
    pose proof (sefields_flatless d fs FD HF) as F. destruct (Forall2_in_l _ _ _ _ F Hf) as [x [Hx Sx]].
    assert (L : slookup (mangle (f_name f) "serializer") (rev (concat (map own_fns fs))) = Some (GFun g)).
    { eapply fns_lookup; eauto. unfold own_fns. destruct Sx as [-> _]. rewrite HS. apply in_or_app. right. now left. }
    destruct FD as (_ & _ & _ & FL). rewrite se_field_own in H by (now apply FL). rewrite HS in H.
    assert (E : match find_ser P (r_class_ser (se_cfg d nm)) (f_type f) with
                | Some _ | _ => Ok [EFn (mangle (f_name f) "serializer") (EAttr obj_var (f_name f))] end
                = Ok [EFn (mangle (f_name f) "serializer") (EAttr obj_var (f_name f))]) by (destruct (find_ser _ _ _); reflexivity).
    cbn [bind] in H. rewrite E in H. cbn [bind mapM eval obj_var] in H. unfold fn_lookup in H. cbn [se_ctx x_fns] in H.
    rewrite L in H. cbn [slookup] in H. change (String.eqb "obj" "obj") with true in H. cbn [of_option bind] in H.
    destruct (getattr P (VObj c attrs) (f_name f)) as [a|?|]; cbn [bind] in H; try discriminate. exists a. split; auto.
    destruct (g a); cbn [bind] in H; [|discriminate..]. exact H.
  Qed.

  (** The field is written as the result of the user's function applied to the attribute, whatever the
      type of the field, the serializer of the class and the global serializers. *)
  Theorem C34_serializer n c d attrs cc ro rc skip x f k g :
    get_class P c = Some d -> shallow d -> NoDup (map (wire_name W d) (declared d)) ->
    first_ser P (VObj c attrs) = None -> plain_arg cc ->
    to_dict P W K n (VObj c attrs) cc ro rc skip = Ok x ->
    In f (declared d) -> no_rule d f -> wire_name W d f = Some k -> f_serializer f = Some (FFun g) ->
    exists kvs a v, x = VMap MDict kvs /\ getattr P (VObj c attrs) (f_name f) = Ok a /\ g a = Ok v /\
      (skip = false \/ v <> VNone -> skey P kvs k = Some v).
  Proof.
    intros Hd FD ND FS PA H Hf NR WN HS.
    destruct (se_ok_S _ _ _ H) as [m ->]. pose proof H as H'. unfold to_dict in H'. apply (to_obj_inv _ _ d) in H'; auto.
    destruct (se_ok_S _ _ _ H') as [m' ->]. clear H'.
    destruct (C05_skip_predicates_partial m' c d attrs cc ro rc skip x f k Hd FD ND FS PA H Hf WN) as (kvs & v & -> & S & C).
    assert (Hf' : In f (c_fields d)) by (now apply filter_In in Hf).
    destruct (ser_value_fun _ _ _ _ _ _ _ _ _ g _ FD Hf' HS S) as [a [A G]]. exists kvs, a, v. repeat split; auto.
    rewrite no_rule_drop in C by exact NR. intros [->|NN]; [exact C|]. destruct v; try contradiction; now rewrite andb_false_r in C.
  Qed.

  (** ** C04 *)

  (** Renderings of the fields that are written (dataclass fields and class variables) *)
  Definition written_at (d : classdef) (a : string) : Prop :=
    (exists f, In f (c_fields d) /\ written f = true /\ f_name f = a) \/ In a (map (fun cv => fst (fst cv)) (c_class_vars d)).

  Lemma live_written d b fs f : sefields d b = Ok fs -> In f (filter (fun fs => negb (se_skipped (fst fs))) fs) ->
    written_at d (f_name (fst f)) /\ ((forall g, In g (c_fields d) -> written g = true -> own_level g) -> own_level (fst f)).
  Proof.
    intros E Hf. unfold sefields in E. inv_bind E. injection E as <-. apply filter_In in Hf as [Hf Hw].
    apply in_app_or in Hf as [Hf|Hf].
    - apply mapM_Ok in Hb. destruct (Forall2_in_r _ _ _ _ Hb Hf) as [g [Hg H]]. inv_bind H. inv_bind H. injection H as <-. cbn [fst] in *.
      assert (written g = true). { unfold se_skipped in Hw. rewrite negb_orb in Hw. exact Hw. }
      split; [left; eauto|auto].
    - destruct b; [|destruct Hf]. apply in_map_iff in Hf as [cv [<- Hcv]]. cbn [fst]. destruct cv as [[nm t] v].
      split; [right; cbn; apply in_map_iff; exists (nm, t, v); auto|]. intros _. left. reflexivity.
  Qed.

  (** The expressions of a field, those of a flattened dataclass too, read nothing but the attribute. *)
  Lemma se_field_all (leaf : expr -> Prop) (var_ok : string -> Prop) (Vv : var_ok "v") (Vk : var_ok "k") n : forall cfg f parent es,
    okx leaf var_ok True (EAttr parent (f_name f)) -> se_field P n cfg f parent = Ok es -> Forall (okx leaf var_ok True) es.
  Proof.
    set (all := Forall (okx leaf var_ok True)).
    assert (ONE : forall x, okx leaf var_ok True x -> all [x]) by (intros; constructor; [assumption|constructor]).
    assert (LW : forall cfg h a t var es l, okx leaf var_ok True var -> all es -> legacy_wrap_list cfg h a t var es = Ok l -> all l).
    { intros cfg h a t var es l V F. unfold legacy_wrap_list. destruct (_ && _ && _); [|intros E; injection E as <-; exact F].
      destruct es as [|e [|]]; try discriminate. intros E. injection E as <-. inversion F; subst. apply ONE. cbn [okx]. right. auto. }
    assert (CORE : forall (splice : string -> res (list expr)) cfg f parent es,
      okx leaf var_ok True (EAttr parent (f_name f)) -> (forall c l, splice c = Ok l -> all l) ->
      let var := EAttr parent (f_name f) in let hasser := has_some (f_serializer f) in
      match find_ser P (r_class_ser cfg) (f_type f), f_serializer f with
      | Some k, None => Ok [EClsSer k var]
      | _, Some (FFun _) => Ok [EFn (mangle (f_name f) "serializer") var]
      | avail, _ =>
        if f_flatten f then
          match f_type f with
          | TClass c => es <- splice c ;; legacy_wrap_list cfg hasser (has_some avail) (f_type f) var es
          | t =>
            match opt_arg t with
            | Some (TClass c) =>
                inner <- match find_ser P (r_class_ser cfg) (TClass c), hasser with
                         | Some k, false => Ok [EClsSer k var]
                         | a', _ => es <- splice c ;; legacy_wrap_list cfg hasser (has_some a') (TClass c) var es
                         end ;;
                legacy_wrap_list cfg hasser (has_some avail) t var inner
            | _ => e <- se_ty P cfg hasser var t ;; Ok [e]
            end
          end
        else e <- se_ty P cfg hasser var (f_type f) ;; Ok [e]
      end = Ok es -> all es).
    { intros splice cfg f parent es V SP var hasser E. fold var in V.
      assert (TY : forall t l, (e <- se_ty P cfg hasser var t ;; Ok [e]) = Ok l -> all l).
      { intros t l X. inv_bind X. injection X as <-. apply ONE. eapply se_ty_okx; eauto. }
      assert (FL : forall avail : option nat, (if f_flatten f then
          match f_type f with
          | TClass c => es <- splice c ;; legacy_wrap_list cfg hasser (has_some avail) (f_type f) var es
          | t =>
            match opt_arg t with
            | Some (TClass c) =>
                inner <- match find_ser P (r_class_ser cfg) (TClass c), hasser with
                         | Some k, false => Ok [EClsSer k var]
                         | a', _ => es <- splice c ;; legacy_wrap_list cfg hasser (has_some a') (TClass c) var es
                         end ;;
                legacy_wrap_list cfg hasser (has_some avail) t var inner
            | _ => e <- se_ty P cfg hasser var t ;; Ok [e]
            end
          end
        else e <- se_ty P cfg hasser var (f_type f) ;; Ok [e]) = Ok es -> all es).
      { intros avail X. destruct (f_flatten f); [|eapply TY; eauto].
        assert (OP : forall t : pytype, match opt_arg t with
            | Some (TClass c) =>
                inner <- match find_ser P (r_class_ser cfg) (TClass c), hasser with
                         | Some k, false => Ok [EClsSer k var]
                         | a', _ => es <- splice c ;; legacy_wrap_list cfg hasser (has_some a') (TClass c) var es
                         end ;;
                legacy_wrap_list cfg hasser (has_some avail) t var inner
            | _ => e <- se_ty P cfg hasser var t ;; Ok [e]
            end = Ok es -> all es).
        { intros t Y. destruct (opt_arg t) as [[]|]; try (eapply TY; exact Y). inv_bind Y. eapply LW; [exact V| |exact Y].
          destruct (find_ser P (r_class_ser cfg) (TClass c)) as [k|]; [destruct hasser; [|injection Hb as <-; apply ONE; cbn [okx]; right; exact V]|];
            inv_bind Hb; exact (LW _ _ _ _ _ _ _ V (SP _ _ Hb0) Hb). }
        specialize (OP (f_type f)). destruct (f_type f); try exact (OP X). inv_bind X. exact (LW _ _ _ _ _ _ _ V (SP _ _ Hb) X). }
      destruct (find_ser P (r_class_ser cfg) (f_type f)) as [k|], (f_serializer f) as [[|g]|];
        try (injection E as <-; apply ONE; cbn [okx]; right; exact V); eapply FL; exact E. }
    induction n as [|n IH]; intros cfg f parent es V E; cbn [se_field] in E.
    - apply (CORE (fun _ => Raise XRecursion) cfg f parent es V); [discriminate|exact E].
    - apply (CORE (fun c => match get_class P c with
          | None => Raise XAttr
          | Some d => fs <- sefields d (r_class_var cfg) ;; ess <- mapM (fun fs => se_field P n cfg (fst fs) (EAttr parent (f_name f))) fs ;; Ok (concat ess)
          end) cfg f parent es V); [|exact E].
      intros c l X. destruct (get_class P c) as [d|]; [|discriminate X]. inv_bind X. inv_bind X. injection X as <-.
      apply mapM_Ok in Hb0. apply Forall_forall. intros e I. apply in_concat in I as (es0 & I & I').
      destruct (Forall2_in_r _ _ _ _ Hb0 I) as (g & _ & G). apply IH in G; [|cbn [okx] in *; now right]. exact (proj1 (Forall_forall _ _) G e I').
  Qed.

  Theorem C04_skipped_values n c d attrs attrs' nm cc ro rc skip :
    get_class P c = Some d -> first_ser P (VObj c attrs) = None -> plain_arg cc ->
    NoDup (map f_name (c_fields d) ++ map (fun cv => fst (fst cv)) (c_class_vars d)) ->
    (forall a, slookup a attrs = slookup a attrs' \/ exists f, In f (c_fields d) /\ f_name f = a /\ written f = false) ->
    run n (QToObj (VObj c attrs) nm ro rc skip cc) = run n (QToObj (VObj c attrs') nm ro rc skip cc).
  Proof.
    intros Hd FS PA ND AG. destruct n; [reflexivity|].
    assert (FS' : first_ser P (VObj c attrs') = None) by exact FS.
    rewrite !to_obj_eq, Hd by assumption. cbn [of_option bind]. f_equal. destruct n; [reflexivity|]. cbn [Eval.run step].
    assert (AG' : forall a, written_at d a -> slookup a attrs = slookup a attrs').
    { intros a Ha. destruct (AG a) as [E|(f & Hf & <- & Wf)]; auto. exfalso. destruct Ha as [(g & Hg & Wg & E)|Ha].
      - assert (f = g); [|congruence]. eapply same_field; eauto. clear - ND. revert ND.
        generalize (map (fun cv : string * pytype * pyval => fst (fst cv)) (c_class_vars d)). intros l ND.
        induction (map f_name (c_fields d)) as [|x r IH]; [constructor|]. cbn [app] in ND. inversion ND; subst. constructor; auto.
        intros H. apply H1. apply in_or_app. now left.
      - apply (in_map f_name) in Hf. revert Hf Ha ND. generalize (f_name f) as z.
        generalize (map (fun cv : string * pytype * pyval => fst (fst cv)) (c_class_vars d)). intros l z. clear.
        induction (map f_name (c_fields d)) as [|x r IH]; [intros []|]. cbn [app]. intros [->|Hx] Hz ND; inversion ND; subst; auto.
        apply H1. apply in_or_app. now right. }
    destruct (render_se P W d nm) as [body| |] eqn:RB; cbn [bind]; try reflexivity.
    destruct (se_fns P (class_fuel P) d) as [fns| |]; cbn [bind]; try reflexivity.
    set (cx := se_ctx P d fns (flag ro (c_reuse d)) (flag rc (c_conv d)) skip).
    set (R := fun rho rho' : env => exists pre, (forall x v, In (x, v) pre -> x <> "obj") /\ rho = pre ++ [("obj", VObj c attrs)] /\ rho' = pre ++ [("obj", VObj c attrs')]).
    set (leaf := fun e => exists a, e = EAttr obj_var a /\ written_at d a).
    assert (R0 : R [("obj", VObj c attrs)] [("obj", VObj c attrs')]).
    { exists []. split; [easy|]. split; reflexivity. }
    assert (EV : forall e, okx leaf (fun x => x = "v" \/ x = "k") True e ->
      eval P W (run n) cx [("obj", VObj c attrs)] e = eval P W (run n) cx [("obj", VObj c attrs')] e).
    { intros e O. assert (SK : set_skip skip cx = cx) by reflexivity.
      rewrite <- SK at 2. eapply (eval_okx P W (run n) cx skip leaf (fun x => x = "v" \/ x = "k") True R); eauto.
      - intros rho rho' x (pre & Hp & -> & ->) Hx. rewrite !slookup_app.
        destruct (slookup x pre); [reflexivity|]. cbn [slookup]. destruct Hx as [-> | ->]; reflexivity.
      - intros rho rho' x (pre & Hp & -> & ->). exists (("v", x) :: pre). split; [|split; reflexivity].
        intros y v [E|H]; [injection E as <- <-; discriminate|eauto].
      - intros rho rho' x (pre & Hp & -> & ->). exists (("k", x) :: pre). split; [|split; reflexivity].
        intros y v [E|H]; [injection E as <- <-; discriminate|eauto].
      - intros e' rho rho' (a & -> & Ha) (pre & Hp & -> & ->). rewrite SK. cbn [eval obj_var].
        assert (L : slookup "obj" pre = None).
        { apply slookup_None. intros H. apply in_map_iff in H as [[x v] [E H]]. cbn [fst] in E. subst x. now apply (Hp _ _ H). }
        rewrite !slookup_app, L. cbn [slookup]. change (String.eqb "obj" "obj") with true. cbn [of_option bind]. unfold getattr. now rewrite (AG' a Ha). }
    assert (EVS : forall fs b l fd, sefields d b = Ok fs -> In fd (filter (fun fs => negb (se_skipped (fst fs))) fs) ->
      se_field P (class_fuel P) (se_cfg d nm) (fst fd) obj_var = Ok l ->
      mapM (eval P W (run n) cx [("obj", VObj c attrs)]) l = mapM (eval P W (run n) cx [("obj", VObj c attrs')]) l).
    { intros fs b l fd E1 E2 E3. destruct (live_written _ _ _ _ E1 E2) as [WA _].
      pose proof (se_field_all leaf (fun x => x = "v" \/ x = "k") (or_introl eq_refl) (or_intror eq_refl) _ _ _ obj_var _
        ltac:(cbn [okx]; left; eexists; split; [reflexivity|exact WA]) E3) as O. rewrite Forall_forall in O.
      apply mapM_ext. intros e I. exact (EV e (O e I)). }
    unfold run_se_body. destruct nm; cbn [render_se] in RB.
    - unfold render_to_dict in RB. inv_bind RB. destruct (c_transparent d).
      + destruct (filter _ a) as [|[f s] live] eqn:EL; [discriminate|]. inv_bind RB. injection RB as <-.
        rewrite (EVS a _ a0 (f, s) Hb); [reflexivity| |exact Hb0]. rewrite EL. now left.
      + inv_bind RB. injection RB as <-. apply mapM_Ok in Hb0.
        match goal with |- bind ?m _ = bind ?m' _ => assert (E : m = m'); [|now rewrite E] end.
        generalize (@nil (pyval * pyval)). revert Hb0.
        assert (SUB : forall x, In x (filter (fun fs => negb (se_skipped (fst fs))) a) -> In x (filter (fun fs => negb (se_skipped (fst fs))) a)) by auto.
        revert SUB. generalize (filter (fun fs => negb (se_skipped (fst fs))) a) at 1 3 as live. intros live SUB F. revert SUB.
        induction F as [|fd st live sts Hst F IH]; intros SUB m; [reflexivity|].
        destruct (se_field P (class_fuel P) (se_cfg d true) (fst fd) obj_var) as [rhs|?|] eqn:Erhs; cbn [bind] in Hst; try discriminate.
        inv_bind Hst. cbn [foldM].
        assert (E : run_sstmt P W (run n) cx [("obj", VObj c attrs)] m st = run_sstmt P W (run n) cx [("obj", VObj c attrs')] m st).
        { unfold run_sstmt. destruct rhs as [|e0 l0]; [discriminate|]. injection Hst as <-. cbn [s_rhs].
          rewrite (EVS _ _ (e0 :: l0) fd Hb (SUB _ (or_introl eq_refl)) Erhs). reflexivity. }
        rewrite E. destruct (run_sstmt P W (run n) cx [("obj", VObj c attrs')] m st); cbn [bind]; try reflexivity.
        apply IH. intros x Hx. apply SUB. now right.
    - unfold render_to_tuple in RB. inv_bind RB. destruct (c_transparent d).
      + destruct (filter _ a) as [|[f s] live] eqn:EL; [discriminate|]. inv_bind RB. injection RB as <-.
        rewrite (EVS a _ a0 (f, s) Hb); [reflexivity| |exact Hb0]. rewrite EL. now left.
      + inv_bind RB. injection RB as <-. apply mapM_Ok in Hb0.
        match goal with |- bind ?m _ = bind ?m' _ => assert (E : m = m'); [|now rewrite E] end.
        apply mapM_ext. intros l Hl. destruct (Forall2_in_r _ _ _ _ Hb0 Hl) as [fd [Hfd Hst]]. cbv beta in Hst. inv_bind Hst.
        destruct a1; [discriminate|]. injection Hst as <-. eapply EVS; eauto.
  Qed.
End Se.

(** * Examples: the hypotheses hold and the conclusions say something *)

Ltac in_fields := simpl; intros; repeat match goal with H : _ \/ _ |- _ => destruct H as [H|H] end; subst; simpl in *; try contradiction; try discriminate; try congruence.

Module SeEx.
  Definition keyd : classdef :=
    clsx "A" [fld "one" TInt; with_names (Some "zwei") [] (fld "two" TString);
              with_default (VInt 0) (with_skip true false false (fld "secret" TInt)); fld "tail" (TList LList TInt)]
      (Some "pascalcase") TagExternal TcStrict false false.
  Definition P1 := prog [keyd] [].
  Definition o1 := [("one", VInt 1); ("two", VStr "x"); ("secret", VInt 7); ("tail", vlist [VInt 3])].

  Lemma flat1 : flatless keyd.
  Proof. split; [reflexivity|]. split; [reflexivity|]. split; [|in_fields]. repeat constructor; simpl; intuition discriminate. Qed.

  Example C03_ex : exists kvs ks, to_dict P1 W0 [] 9 (VObj "A" o1) None None None false = Ok (VMap MDict kvs) /\
    map fst kvs = map VStr ks /\ ks = ["One"; "zwei"; "Tail"].
  Proof.
    destruct (C03_keys P1 W0 [] 9 "A" keyd o1 None None None _ eq_refl flat1 ltac:(in_fields; repeat split) eq_refl I eq_refl) as (kvs & ks & E & M & K & _).
    assert (ks = ["One"; "zwei"; "Tail"]) by (revert M; vm_compute; destruct ks as [|? [|? [|? [|? ?]]]]; intros M; congruence). subst ks.
    exists kvs, ["One"; "zwei"; "Tail"]. split; [now rewrite <- E|]. split; [|reflexivity].
    apply K. repeat constructor; simpl; intuition discriminate.
  Qed.

  (** Two instances that differ in the skipped field *)
  Example C04_ex s n : to_dict P1 W0 [] n (VObj "A" [("one", VInt 1); ("two", VStr "x"); ("secret", VInt s); ("tail", vlist [VInt 3])]) None None None false =
    to_dict P1 W0 [] n (VObj "A" o1) None None None false.
  Proof.
    apply (C04_skipped_values P1 W0 [] n "A" keyd); try reflexivity; try exact I.
    - repeat constructor; simpl; intuition discriminate.
    - intros a. unfold o1. cbn [slookup]. destruct (String.eqb_spec "one" a); [auto|]. destruct (String.eqb_spec "two" a); [auto|].
      destruct (String.eqb_spec "secret" a); [|auto]. right. eexists. split; [right; right; left; reflexivity|]. auto.
  Qed.

  (** skip_if on one field, a class level skip_if_none that one field switches off *)
  Definition skipd : classdef :=
    let d := cls "S" [with_skip_if (Some (fun v => match v with VInt z => Ok (Z.ltb z 5) | _ => Raise XType end)) true None None (fld "a" TInt);
                      fld "b" (TOpt TInt); with_skip_if None false (Some false) None (fld "c" (TOpt TInt))] in
    {| c_id := c_id d; c_name := c_name d; c_fields := c_fields d;
       c_mro := c_mro d; c_rename_all := c_rename_all d; c_reuse := c_reuse d; c_conv := c_conv d;
       c_skip_if_default := c_skip_if_default d; c_skip_if_none := true;
       c_serializer := c_serializer d; c_deserializer := c_deserializer d;
       c_tagging := c_tagging d; c_check := c_check d; c_ser_class_var := c_ser_class_var d;
       c_class_vars := c_class_vars d;
       c_transparent := c_transparent d; c_class_ser := c_class_ser d; c_class_de := c_class_de d; c_deny := c_deny d;
       c_tvars := c_tvars d; c_post := c_post d; c_hashable := c_hashable d |}.
  Definition P2 := prog [skipd] [].

  Lemma flat2 : flatless skipd.
  Proof. split; [reflexivity|]. split; [reflexivity|]. split; [|in_fields]. repeat constructor; simpl; intuition discriminate. Qed.

  Example C05_ex z x : to_dict P2 W0 [] 9 (VObj "S" [("a", VInt z); ("b", VNone); ("c", VNone)]) None None None false = Ok x ->
    exists kvs, x = VMap MDict kvs /\ skey P2 kvs "a" = (if Z.ltb z 5 then None else Some (VInt z)).
  Proof.
    intros H.
    destruct (C05_skip_predicates_partial P2 W0 [] 7 "S" skipd _ None None None false x (hd (fld "" TInt) (c_fields skipd)) "a" eq_refl (flatless_shallow _ flat2)
      ltac:(repeat constructor; simpl; intuition discriminate) eq_refl I H ltac:(now left) eq_refl) as (kvs & v & -> & S & C).
    exists kvs. split; [reflexivity|]. assert (v = VInt z) by (revert S; vm_compute; congruence). subst v.
    cbn [drop_rule f_skip_if hd c_fields skipd cls clsx with_skip_if fld] in C. destruct C as (b & E & C). injection E as <-.
    destruct (Z.ltb z 5); [exact (left_out_flatless _ _ _ _ _ flat2 C)|exact C].
  Qed.
  Example C05_run :
    to_dict P2 W0 [] 9 (VObj "S" [("a", VInt 4); ("b", VNone); ("c", VNone)]) None None None false = Ok (dict [("c", VNone)]) /\
    to_dict P2 W0 [] 9 (VObj "S" [("a", VInt 5); ("b", VInt 1); ("c", VNone)]) None None None false = Ok (dict [("a", VInt 5); ("b", VInt 1); ("c", VNone)]).
  Proof. split; vm_compute; reflexivity. Qed.

  (** skip_none *)
  Definition optd : classdef := cls "O" [fld "a" (TOpt TInt); fld "b" TString].
  Definition P3 := prog [optd] [].
  Lemma flat3 : flatless optd.
  Proof. split; [reflexivity|]. split; [reflexivity|]. split; [|in_fields]. repeat constructor; simpl; intuition discriminate. Qed.

  Example C06_ex : to_dict P3 W0 [] 9 (VObj "O" [("a", VNone); ("b", VStr "x")]) None None None true = Ok (dict [("b", VStr "x")]).
  Proof.
    apply (C06_other_entries_partial P3 W0 [] 9 "O" optd [("a", VNone); ("b", VStr "x")] None None None [(VStr "a", VNone); (VStr "b", VStr "x")]);
      try reflexivity; [apply flat3|repeat constructor; simpl; intuition discriminate|in_fields; repeat split].
  Qed.
  Example C06_ex2 x : to_dict P3 W0 [] 9 (VObj "O" [("a", VNone); ("b", VStr "x")]) None None None true = Ok x ->
    exists kvs v, x = VMap MDict kvs /\ (v = VNone -> skey P3 kvs "a" = None).
  Proof.
    intros H. destruct (C06_skip_none_partial P3 W0 [] 7 "O" optd _ None None None x (fld "a" (TOpt TInt)) "a" eq_refl (flatless_shallow _ flat3)
      ltac:(repeat constructor; simpl; intuition discriminate) eq_refl I H ltac:(now left) ltac:(repeat split) eq_refl) as (kvs & v & -> & _ & N & _).
    exists kvs, v. split; [reflexivity|]. intros E. exact (left_out_flatless _ _ _ _ _ flat3 (N E)).
  Qed.

  (** A field serializer wins over a global one for the same type *)
  Definition fund : classdef := cls "F" [with_fns (Some (FFun (fun v => match v with VInt z => Ok (VStr "own") | _ => Raise XType end))) None (fld "a" TInt)].
  Definition P4 := mkProgram [fund] [] [mkClsser [TInt] (fun _ => Ok (VStr "global"))] [] (fun _ _ => false).
  Lemma flat4 : flatless fund.
  Proof. split; [reflexivity|]. split; [reflexivity|]. split; [|in_fields]. repeat constructor; simpl; intuition discriminate. Qed.
  Example C34_ex x z : to_dict P4 W0 [] 9 (VObj "F" [("a", VInt z)]) None None None false = Ok x ->
    exists kvs, x = VMap MDict kvs /\ skey P4 kvs "a" = Some (VStr "own").
  Proof.
    intros H. destruct (C34_serializer P4 W0 [] 9 "F" fund _ None None None false x (hd (fld "" TInt) (c_fields fund)) "a" _ eq_refl (flatless_shallow _ flat4)
      ltac:(repeat constructor; simpl; intuition discriminate) eq_refl I H ltac:(now left) ltac:(repeat split) eq_refl eq_refl) as (kvs & a & v & -> & A & G & N).
    injection A as <-. injection G as <-. exists kvs. split; auto.
  Qed.
  Example C34_run : to_dict P4 W0 [] 9 (VObj "F" [("a", VInt 3)]) None None None false = Ok (dict [("a", VStr "own")]).
  Proof. vm_compute. reflexivity. Qed.

  (** A flattened dict with entries for both declared fields and one of its own: the declared field [a] wins, the entry
      of the dropped field [b] shows. *)
  Definition extd : classdef :=
    cls "E" [fld "a" TInt; with_skip_if None false (Some true) None (fld "b" (TOpt TInt)); flat (fld "more" (TDict DkDict TString TAny))].
  Definition P5 := prog [extd] [].
  Definition o5 := [("a", VInt 1); ("b", VNone); ("more", dict [("a", VInt 9); ("b", VInt 8); ("c", VInt 7)])].
  Lemma shal5 : shallow extd.
  Proof.
    split; [reflexivity|]. split; [reflexivity|]. split; [repeat constructor; simpl; intuition discriminate|].
    intros f [<-|[<-|[<-|[]]]]; [left|left|right]; reflexivity.
  Qed.
  Example C12_ex x : to_dict P5 W0 [] 9 (VObj "E" o5) None None None false = Ok x ->
    exists kvs, x = VMap MDict kvs /\ skey P5 kvs "a" = Some (VInt 1) /\ skey P5 kvs "b" = Some (VInt 8) /\ skey P5 kvs "c" = Some (VInt 7).
  Proof.
    intros H. destruct (C12_precedence_partial P5 W0 [] 7 "E" extd _ None None None false x (flat (fld "more" (TDict DkDict TString TAny))) eq_refl shal5
      ltac:(repeat constructor; simpl; intuition discriminate) eq_refl I H ltac:(simpl; auto) eq_refl eq_refl ltac:(in_fields)) as (kvs & v & l & -> & S & X & A & B).
    exists kvs. split; [reflexivity|].
    assert (EV : v = dict [("a", VInt 9); ("b", VInt 8); ("c", VInt 7)]) by (revert S; vm_compute; congruence). subst v.
    assert (EL : l = [(VStr "a", VInt 9); (VStr "b", VInt 8); (VStr "c", VInt 7)]) by (revert X; vm_compute; intros [m X]; congruence). subst l.
    split; [|split].
    - destruct (A (fld "a" TInt) "a" ltac:(now left) eq_refl) as (vg & out & Sg & C & ->).
      assert (vg = VInt 1) by (revert Sg; vm_compute; congruence). subst vg. rewrite C. reflexivity.
    - destruct (A (with_skip_if None false (Some true) None (fld "b" (TOpt TInt))) "b" ltac:(simpl; auto) eq_refl) as (vg & out & Sg & C & ->).
      assert (vg = VNone) by (revert Sg; vm_compute; congruence). subst vg.
      destruct C as (b & E & ->). injection E as <-. reflexivity.
    - rewrite B; [reflexivity|]. simpl. intuition discriminate.
  Qed.
  Example C12_run : to_dict P5 W0 [] 9 (VObj "E" o5) None None None false = Ok (dict [("a", VInt 1); ("b", VInt 8); ("c", VInt 7)]).
  Proof. vm_compute. reflexivity. Qed.
End SeEx.

(** C06, full claim: skip_none=True only drops entries that are None.  Entries of nested dataclasses are
    dropped as well, and a field with a nested dataclass changes its value. *)
Theorem C06_nested_refuted :
  exists P o, to_dict P W0 [] 20 o None None None false = Ok (dict [("b", dict [("x", VNone)])]) /\
    to_dict P W0 [] 20 o None None None true = Ok (dict [("b", dict [])]).
Proof.
  exists (prog [cls "B" [fld "x" (TOpt TInt)]; cls "A" [fld "b" (TClass "B")]] []), (VObj "A" [("b", VObj "B" [("x", VNone)])]).
  split; vm_compute; reflexivity.
Qed.

Print Assumptions C03_keys.
Print Assumptions C04_skipped_values.
Print Assumptions C05_skip_predicates_partial.
Print Assumptions C06_skip_none_partial.
Print Assumptions C06_other_entries_partial.
Print Assumptions C12_precedence_partial.
Print Assumptions C34_serializer.
Print Assumptions C06_nested_refuted.
