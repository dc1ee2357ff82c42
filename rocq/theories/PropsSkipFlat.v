(** Skip predicates and skip_none in classes with flattened dataclasses: C05, C06. *)
From Coq Require Import String List ZArith Bool Ascii Lia.
From Verif Require Import Base PyVal PyType Program Compat Syntax SeRender DeRender Eval Facts Mono Spec Walk Depend Ex PropsSe Cover.
Import ListNotations.
Open Scope string_scope.
Open Scope list_scope.

Section SkipFlat.
  Variables (P : program) (W : world) (K : list (tagging * pytype)).
  Notation run := (run P W K).
  Notation es := (enum_scalar P).

  (** [d']: a class flattened into [d], directly or by way of others *)
  Inductive merged : classdef -> classdef -> Prop :=
  | mg_child d f c d' : In f (c_fields d) -> f_flatten f = true ->
      f_type f = TClass c \/ opt_arg (f_type f) = Some (TClass c) -> get_class P c = Some d' -> merged d d'
  | mg_deep d d1 d2 : merged d d1 -> merged d1 d2 -> merged d d2.

  (** The field [f] with key [k] is the only one of the class and of those flattened into it with its name and its key. *)
  Definition sole (d : classdef) (f : fielddef) (k : string) : Prop :=
    NoDup (map f_name (c_fields d)) /\ NoDup (map (wire_name W d) (declared d)) /\
    forall d' g, merged d d' -> In g (c_fields d') -> f_name g <> f_name f /\ (f_flatten g = false -> wire_name W d g <> Some k).

  Definition no_vars (d : classdef) : Prop := c_ser_class_var d = false /\ forall d', merged d d' -> c_ser_class_var d' = false.

  Definition child (f : fielddef) : option string :=
    match f_type f with
    | TClass c => Some c
    | t => match opt_arg t with Some (TClass c) => Some c | _ => None end
    end.
  Lemma child_type f c : child f = Some c -> f_type f = TClass c \/ opt_arg (f_type f) = Some (TClass c).
  Proof.
    unfold child. destruct (f_type f) eqn:E; try discriminate; [|intros [= <-]; now left].
    destruct (opt_arg (TUnion l)) as [[]|]; try discriminate. intros [= <-]. now right.
  Qed.

  Lemma sefields_in d fs x : sefields d false = Ok fs -> In x fs ->
    In (fst x) (c_fields d) /\ check_field (fst x) = Ok tt /\ skips_of d (fst x) x.
  Proof.
    unfold sefields. intros H I. inv_bind H. rewrite app_nil_r in H. injection H as <-. apply mapM_Ok in Hb.
    destruct (Forall2_in_r _ _ _ _ Hb I) as [f [Hf H]]. inv_bind H. inv_bind H. injection H as <-. destruct a0. cbn [fst].
    split; [exact Hf|]. split; [assumption|]. now split.
  Qed.

  (** Keys assigned *)
  Lemma targets_eq n case f : se_targets P W n case false f =
    let key := k <- conv W case (f_name f) (f_rename f) ;; k <- lit k ;; Ok [TgtKey k] in
    if f_flatten f then
      match child f with
      | Some c =>
        match n with
        | O => Raise XRecursion
        | S n =>
          match get_class P c with
          | None => Raise XAttr
          | Some d =>
            fs <- sefields d false ;;
            ts <- mapM (fun fs => se_targets P W n case false (fst fs)) fs ;;
            Ok (concat ts)
          end
        end
      | None => if is_flatten_dict (f_type f) then Ok [TgtFlat] else key
      end
    else key.
  Proof.
    destruct n; cbn [se_targets]; unfold child; (destruct (f_flatten f); [|reflexivity]); destruct (f_type f); try reflexivity;
      destruct (opt_arg _) as [[]|]; reflexivity.
  Qed.
  Lemma flat_kind f : check_field f = Ok tt -> f_flatten f = true -> child f = None -> is_flatten_dict (f_type f) = true.
  Proof.
    unfold check_field, child. intros CF FL CH. rewrite FL in CF. cbn [andb] in CF. destruct (is_flatten_dict (f_type f)) eqn:D; [reflexivity|]. exfalso.
    destruct (f_type f); cbn [is_class] in *; try discriminate. destruct (opt_arg (TUnion l)) as [[]|]; cbn [is_class negb orb] in *; discriminate.
  Qed.
  Lemma key_target case f ts k : (k0 <- conv W case (f_name f) (f_rename f) ;; k1 <- lit k0 ;; Ok [TgtKey k1]) = Ok ts -> In (TgtKey k) ts ->
    ts = [TgtKey k] /\ conv W case (f_name f) (f_rename f) = Ok k.
  Proof.
    intros H Hk. inv_bind H. inv_bind H. injection H as <-. destruct Hk as [Hk|[]]. injection Hk as <-.
    unfold lit in Hb0. destruct (lit_ok _); [|discriminate]. injection Hb0 as <-. auto.
  Qed.
  Lemma targets_from n case : forall f ts, se_targets P W n case false f = Ok ts -> check_field f = Ok tt ->
    forall k, In (TgtKey k) ts ->
    f_flatten f = false /\ ts = [TgtKey k] /\ conv W case (f_name f) (f_rename f) = Ok k \/
    exists c d' d'' g, child f = Some c /\ f_flatten f = true /\ get_class P c = Some d' /\ (d'' = d' \/ merged d' d'') /\
      In g (c_fields d'') /\ f_flatten g = false /\ conv W case (f_name g) (f_rename g) = Ok k.
  Proof.
    induction n as [|n IH]; intros f ts H CF k Hk; rewrite targets_eq in H; cbv zeta in H; destruct (f_flatten f) eqn:FL;
      try (left; split; [reflexivity|]; now apply key_target);
      (destruct (child f) as [c|] eqn:CH; [|rewrite (flat_kind f CF FL CH) in H; injection H as <-; destruct Hk as [Hk|[]]; discriminate Hk]); [discriminate|].
    right. destruct (get_class P c) as [d|] eqn:GC; [|discriminate]. inv_bind H. inv_bind H. injection H as <-. rename a into fs. rename a0 into tss.
    apply in_concat in Hk as (ts' & Hts & Hk). apply mapM_Ok in Hb0. destruct (Forall2_in_r _ _ _ _ Hb0 Hts) as (x & Hx & E).
    destruct (sefields_in d fs x Hb Hx) as (Ix & Cx & _).
    destruct (IH _ _ E Cx k Hk) as [(F0 & _ & C0)|(c1 & d1 & d2 & g & H1 & H2 & H3 & H4 & H5 & H6 & H7)].
    - exists c, d, d, (fst x). repeat split; auto.
    - exists c, d, d2, g. repeat split; auto. right.
      assert (M : merged d d1) by (eapply mg_child; eauto using child_type).
      destruct H4 as [->|H4]; [exact M|]. eapply mg_deep; eauto.
  Qed.

  (** Functions in scope *)
  Lemma fns_eq n d : se_fns P n d =
    fs <- sefields d (c_ser_class_var d) ;;
    ls <- mapM (fun fs =>
      match f_flatten (fst fs), child (fst fs) with
      | true, Some c =>
        match n with
        | O => Raise XRecursion
        | S n => match get_class P c with None => Raise XAttr | Some d' => l <- se_fns P n d' ;; Ok (own_fns fs ++ l) end
        end
      | _, _ => Ok (own_fns fs)
      end) fs ;;
    Ok (concat ls).
  Proof. destruct n; reflexivity. Qed.
  Lemma fns_from n : forall d l, se_fns P n d = Ok l -> no_vars d -> forall nm g, In (nm, g) l ->
    exists d' f x, (d' = d \/ merged d d') /\ In f (c_fields d') /\ skips_of d' f x /\ In (nm, g) (own_fns x).
  Proof.
    induction n as [|n IH]; intros d l H NV nm g I; rewrite fns_eq in H; inv_bind H; inv_bind H; injection H as <-;
      rename a into fs; rename a0 into ls; apply in_concat in I as (l & Hl & I); apply mapM_Ok in Hb0; destruct (Forall2_in_r _ _ _ _ Hb0 Hl) as (x & Hx & E);
      rewrite (proj1 NV) in Hb; destruct (sefields_in d fs x Hb Hx) as (Ix & Cx & Sx); cbv beta in E;
      (destruct (f_flatten (fst x)) eqn:FL; [destruct (child (fst x)) as [c|] eqn:CH|]);
      try (injection E as <-; exists d, (fst x), x; auto); [discriminate|].
    destruct (get_class P c) as [d1|] eqn:GC; [|discriminate]. inv_bind E. injection E as <-. rename a into l1.
    assert (M : merged d d1) by (eapply mg_child; eauto using child_type).
    apply in_app_or in I as [I|I]; [exists d, (fst x), x; auto|].
    destruct (IH d1 l1 Hb1) with (nm := nm) (g := g) as (d' & f & y & D & If & Sy & Iy); auto.
    - split; [now apply NV|]. intros d' M'. apply NV. eapply mg_deep; eauto.
    - exists d', f, y. split; [right|auto]. destruct D as [->|D]; [exact M|]. eapply mg_deep; eauto.
  Qed.
  Lemma fns_own n d l fs x y : se_fns P n d = Ok l -> sefields d (c_ser_class_var d) = Ok fs -> In x fs -> In y (own_fns x) -> In y l.
  Proof.
    intros H SF Hx Hy. rewrite fns_eq, SF in H. cbn [bind] in H. inv_bind H. injection H as <-. apply mapM_Ok in Hb.
    destruct (Forall2_in_l _ _ _ _ Hb Hx) as (l & Hl & E). cbv beta in E. apply in_concat. exists l. split; [exact Hl|].
    destruct (f_flatten (fst x)); [|injection E as <-; exact Hy]. destruct (child (fst x)); [|injection E as <-; exact Hy].
    destruct n; [discriminate|]. destruct (get_class P s); [|discriminate]. inv_bind E. injection E as <-. apply in_or_app. now left.
  Qed.
  Lemma fns_skip n d l fs f k x nm p : se_fns P n d = Ok l -> no_vars d -> sefields d false = Ok fs -> sole d f k ->
    In x fs -> fst x = f -> snd x = Some (nm, p) -> slookup nm (rev l) = Some (GSkip p).
  Proof.
    intros H NV SF (N1 & _ & SO) Hx E S0. destruct (sefields_in d fs x SF Hx) as (Ix & _ & Sx). rewrite E in Ix, Sx.
    assert (IO : In (nm, GSkip p) (own_fns x)) by (unfold own_fns; rewrite S0; now left).
    destruct (own_names d f x nm _ Sx IO) as (s & Hs & -> & _).
    apply slookup_functional.
    - rewrite <- in_rev. eapply fns_own; eauto. now rewrite (proj1 NV).
    - intros g Hg. rewrite <- in_rev in Hg. destruct (fns_from n d l H NV _ _ Hg) as (d' & f' & y & D & If & Sy & Iy).
      destruct (own_names d' f' y _ _ Sy Iy) as (s' & Hs' & M & C). destruct (mangle_inj _ _ _ _ Hs Hs' M) as [N <-].
      destruct D as [->|D]; [|exfalso; apply (proj1 (SO d' f' D If)); congruence].
      assert (f' = f) by (eapply same_field; eauto). subst f'.
      destruct (own_names d f x _ _ Sx IO) as (s2 & Hs2 & M2 & C2). destruct (mangle_inj _ _ _ _ Hs Hs2 M2) as [_ <-].
      destruct C2 as [(_ & [(_ & C2)|(h & _ & C2)])|(NS & _)]; try discriminate C2.
      destruct C as [(C & _)|(_ & q & -> & C)]; [congruence|].
      destruct Sx as [_ Sx], Sy as [_ Sy]. congruence.
  Qed.

  (** Assignments of other keys *)
  Lemma assign_other k ts v m m' : assign P ts v m = Ok m' -> ~ In (TgtKey k) ts -> dget es m' (VStr k) = dget es m (VStr k).
  Proof.
    assert (A1 : forall t x m0, t <> TgtKey k -> dget es (assign1 P m0 (t, x)) (VStr k) = dget es m0 (VStr k)).
    { intros [k'|] x m0 N; cbn [assign1 fst snd]; [|reflexivity]. rewrite dget_dset_str. destruct (String.eqb_spec k' k); congruence. }
    assert (AF : forall l a m0, ~ In (TgtKey k) l -> dget es (fold_left (assign1 P) (combine l a) m0) (VStr k) = dget es m0 (VStr k)).
    { induction l as [|u l IH]; intros [|y a] m0 NI; cbn [combine fold_left]; try reflexivity.
      rewrite IH by (intros I; apply NI; now right). apply A1. intros ->. apply NI. now left. }
    unfold assign. intros H NI. destruct ts as [|t [|t' ts]]; [discriminate|injection H as <-; apply A1; intros ->; apply NI; now left|].
    inv_bind H. destruct (Nat.eqb _ _); [|discriminate]. injection H as <-. exact (AF (t :: t' :: ts) a m NI).
  Qed.

  Section Run.
    Variables (n : nat) (d : classdef) (obj : pyval) (re cv skip : bool) (fns : list (string * gfun)) (f : fielddef) (k : string).
    Hypotheses (FN : se_fns P (class_fuel P) d = Ok fns) (NV : no_vars d) (SO : sole d f k) (Hf : In f (declared d)) (WN : wire_name W d f = Some k).
    Let cx := se_ctx P d fns re cv skip.
    Let ser := ser_value P W K n d true re cv skip obj.

    Definition stmt_of (x : fielddef * option (string * skipfn)) (st : sstmt) : Prop :=
      exists rhs ts, se_field P (class_fuel P) (se_cfg d true) (fst x) obj_var = Ok rhs /\
        se_targets P W (class_fuel P) (c_rename_all d) false (fst x) = Ok ts /\ st = mkSstmt rhs ts (option_map fst (snd x)).

    Lemma stmt_ser x st m m' : stmt_of x st -> run_sstmt P W (run n) cx [("obj", obj)] m st = Ok m' ->
      exists v, ser (fst x) = Ok v /\
        match s_targets st with
        | [TgtFlat] => if truthy es v then exists l, (exists mk, v = VMap mk l) /\ m' = put P m (Extra l) else m' = m
        | ts =>
          match s_skip st with
          | Some nm => exists p b, slookup nm (rev fns) = Some (GSkip p) /\ run_skip P (run n) p v = Ok b /\ if b : bool then m' = m else assign P ts v m = Ok m'
          | None => if skip && is_vnone v then m' = m else assign P ts v m = Ok m'
          end
        end.
    Proof.
      intros (rhs & ts & RH & TS & ->) H. unfold run_sstmt in H. cbn [s_rhs s_targets s_skip] in *. inv_bind H. rename a into vs.
      exists (tuple_of vs). split; [unfold ser, ser_value; rewrite FN; cbn [bind]; rewrite RH; cbn [bind]; fold cx; rewrite Hb; reflexivity|].
      assert (G : match option_map fst (snd x) with
        | Some nm => match fn_lookup cx nm with Some (GSkip p) => b <- run_skip P (run n) p (tuple_of vs) ;; if (b : bool) then Ok m else assign P ts (tuple_of vs) m | _ => Raise XName end
        | None => if x_skip cx then match tuple_of vs with VNone => Ok m | _ => assign P ts (tuple_of vs) m end else assign P ts (tuple_of vs) m end = Ok m' ->
        match option_map fst (snd x) with
        | Some nm => exists p b, slookup nm (rev fns) = Some (GSkip p) /\ run_skip P (run n) p (tuple_of vs) = Ok b /\ if b : bool then m' = m else assign P ts (tuple_of vs) m = Ok m'
        | None => if skip && is_vnone (tuple_of vs) then m' = m else assign P ts (tuple_of vs) m = Ok m' end).
      { destruct (option_map fst (snd x)) as [nm|].
        - unfold fn_lookup. cbn [cx se_ctx x_fns]. destruct (slookup nm (rev fns)) as [[p|p]|]; try discriminate. intros E. inv_bind E. exists p, a.
          split; [reflexivity|]. split; [eassumption|]. destruct a; [now injection E|exact E].
        - cbn [cx se_ctx x_skip]. destruct skip; cbn [andb]; [|auto]. destruct (tuple_of vs); cbn [is_vnone]; auto. now intros [= ->]. }
      destruct ts as [|[k'|] [|t' ts]]; try (apply G; exact H).
      destruct (truthy es (tuple_of vs)); [|now injection H]. inv_bind H. injection H as <-. destruct (tuple_of vs); try discriminate. injection Hb0 as ->.
      eexists. split; [eexists; reflexivity|]. reflexivity.
    Qed.

    (** Statements of the other fields *)
    Lemma others lx sts : Forall2 stmt_of lx sts ->
      (forall x, In x lx -> fst x <> f /\ In (fst x) (filter written (c_fields d)) /\ check_field (fst x) = Ok tt) ->
      forall m m', foldM (run_sstmt P W (run n) cx [("obj", obj)]) sts m = Ok m' ->
      match dget es m (VStr k) with
      | Some y => dget es m' (VStr k) = Some y
      | None => dget es m' (VStr k) = None \/
          exists g mk l, In g (c_fields d) /\ written g = true /\ f_flatten g = true /\ ser g = Ok (VMap mk l) /\ dget es l (VStr k) = dget es m' (VStr k)
      end.
    Proof.
      induction 1 as [|x st lx sts Hx F IH]; intros HL m m' H; cbn [foldM] in H.
      - injection H as <-. destruct (dget es m (VStr k)); auto.
      - inv_bind H. rename a into m1. destruct (HL x (or_introl eq_refl)) as (NE & Ix & CF). apply filter_In in Ix as [Ix Wx].
        specialize (IH (fun y Hy => HL y (or_intror Hy)) m1 m' H).
        destruct (stmt_ser x st m m1 Hx Hb) as (v & SV & R). destruct Hx as (rhs & ts & RH & TS & ->). cbn [s_targets s_skip] in R.
        assert (NI : ~ In (TgtKey k) ts).
        { intros I. destruct (targets_from _ _ _ _ TS CF k I) as [(FL & _ & CV)|(c & d' & d'' & g & CH & FL & GC & D & Ig & Fg & CV)]; apply (conv_wire W d) in CV.
          - apply NE. destruct SO as (_ & ND & _).
            assert (Dx : In (fst x) (declared d)) by (unfold declared; apply filter_In; rewrite Wx, FL; auto).
            clear - ND Hf Dx CV WN. revert ND Hf Dx. induction (declared d) as [|a l IH]; [intros _ []|]. cbn [map]. intros ND. inversion ND as [|? ? N1 N2]; subst.
            intros [->|A] [E|B]; auto; exfalso; apply N1; [rewrite WN, <- CV|subst; rewrite CV, <- WN]; now apply in_map.
          - assert (M : merged d d') by (eapply mg_child; eauto using child_type).
            apply (proj2 (proj2 SO)) in Ig as [_ Ig]; [now apply Ig|]. destruct D as [->|D]; [exact M|]. eapply mg_deep; eauto. }
        assert (OT : m1 = m \/ assign P ts v m = Ok m1 -> dget es m1 (VStr k) = dget es m (VStr k)) by (intros [-> |A]; [reflexivity|eapply assign_other; eauto]).
        assert (EX : dget es m1 (VStr k) = dget es m (VStr k) -> _) by (intros E; rewrite E in IH; exact IH).
        assert (OT' : match option_map fst (snd x) with
          | Some nm => exists p b, slookup nm (rev fns) = Some (GSkip p) /\ run_skip P (run n) p v = Ok b /\ if b : bool then m1 = m else assign P ts v m = Ok m1
          | None => if skip && is_vnone v then m1 = m else assign P ts v m = Ok m1 end -> dget es m1 (VStr k) = dget es m (VStr k)).
        { intros A. apply OT. destruct (option_map fst (snd x)); [destruct A as (p & b & _ & _ & A); destruct b; auto|]. destruct (skip && is_vnone v); auto. }
        destruct ts as [|[k'|] [|t' ts]]; try (apply EX, OT', R).
        destruct (truthy es v); [|subst m1; exact IH]. destruct R as (l & (mk & ->) & ->). rewrite dget_put in IH.
        destruct (dget es m (VStr k)); [exact IH|]. destruct (dget es l (VStr k)) as [y|] eqn:L; [|exact IH].
        right. exists (fst x), mk, l. repeat split; auto; [|now rewrite L, IH].
        destruct (f_flatten (fst x)) eqn:FL; [reflexivity|]. exfalso. rewrite targets_eq, FL in TS. cbv zeta in TS. inv_bind TS. inv_bind TS. discriminate TS.
    Qed.
  End Run.

  (** Declared fields of a class with flattened dataclasses and dicts: written unless the predicate that applies says otherwise *)
  Theorem C05_flattened_partial n c d attrs cc ro rc skip x f k :
    get_class P c = Some d -> c_transparent d = false -> no_vars d ->
    first_ser P (VObj c attrs) = None -> plain_arg cc ->
    to_dict P W K (S (S n)) (VObj c attrs) cc ro rc skip = Ok x ->
    In f (declared d) -> wire_name W d f = Some k -> sole d f k ->
    let ser := ser_value P W K n d true (flag ro (c_reuse d)) (flag rc (c_conv d)) skip (VObj c attrs) in
    exists kvs v, x = VMap MDict kvs /\ ser f = Ok v /\
      match drop_rule P W K n d f v with
      | Some r => exists b : bool, r = Ok b /\ if b then left_out P d ser kvs k else skey P kvs k = Some v
      | None => if skip && is_vnone v then left_out P d ser kvs k else skey P kvs k = Some v
      end.
  Proof.
    intros Hd TR NV FS PA H Hf WN SO ser. unfold to_dict in H. apply (to_obj_inv _ _ _ _ _ d) in H; auto.
    cbn [Eval.run step] in H. inv_bind H. inv_bind H. rename a into body. rename a0 into fns. cbn [render_se] in Hb. unfold render_to_dict in Hb.
    rewrite (proj1 NV), TR in Hb. inv_bind Hb. inv_bind Hb. injection Hb as <-. rename a into fs. rename a0 into sts.
    cbn [run_se_body] in H. inv_bind H. injection H as <-. rename a into m. rename Hb into HM.
    set (live := filter (fun fs => negb (se_skipped (fst fs))) fs) in *.
    assert (F2 : Forall2 (stmt_of d) live sts).
    { apply mapM_Ok in Hb2. eapply Forall2_impl; [|exact Hb2]. intros y st _ _ E. cbv beta in E. inv_bind E. inv_bind E. exists a, a0. split; [assumption|]. split; [assumption|].
      destruct a; [discriminate|]. now injection E. }
    assert (LV : forall y, In y live -> In (fst y) (filter written (c_fields d)) /\ check_field (fst y) = Ok tt /\ skips_of d (fst y) y).
    { intros y Hy. apply filter_In in Hy as [Hy Sy]. destruct (sefields_in d fs y Hb1 Hy) as (A & B & C). split; [|auto]. apply filter_In. split; [exact A|].
      unfold se_skipped in Sy. unfold written. now rewrite negb_orb in Sy. }
    assert (EX : exists l1 y l2, live = l1 ++ y :: l2 /\ fst y = f /\ forall z, In z l1 \/ In z l2 -> fst z <> f).
    { assert (E : map fst fs = c_fields d).
      { unfold sefields in Hb1. inv_bind Hb1. rewrite app_nil_r in Hb1. injection Hb1 as <-. apply mapM_Ok in Hb. clear -Hb.
        induction Hb as [|g y l l' E F IH]; [reflexivity|]. cbn [map]. rewrite IH. inv_bind E. inv_bind E. injection E as <-. reflexivity. }
      assert (I : In f (map fst live)).
      { unfold declared in Hf. apply filter_In in Hf as [Hf Wf]. rewrite <- E in Hf. apply in_map_iff in Hf as (y & <- & Hy). apply in_map. apply filter_In. split; [exact Hy|].
        apply andb_true_iff in Wf as [Wf _]. unfold written in Wf. unfold se_skipped. now rewrite negb_orb. }
      assert (ND : NoDup (map fst live)).
      { destruct SO as (N1 & _ & _). rewrite <- E in N1. apply NoDup_map_inv in N1. clear - N1. subst live. induction fs as [|a l IH]; [constructor|].
        cbn [map filter] in *. inversion N1; subst. destruct (negb _); [|auto]. cbn [map]. constructor; auto. intros I. apply H1. apply in_map_iff in I as (y & <- & I).
        apply filter_In in I as [I _]. now apply in_map. }
      apply in_map_iff in I as (y & Ey & Iy). apply in_split in Iy as (l1 & l2 & EL). exists l1, y, l2. split; [exact EL|]. split; [exact Ey|].
      rewrite EL, map_app in ND. cbn [map] in ND. apply NoDup_remove_2 in ND. intros z Hz E2. apply ND. rewrite Ey, <- E2. apply in_or_app. destruct Hz; [left|right]; now apply in_map. }
    destruct EX as (l1 & y & l2 & EL & Ey & NE). rewrite EL in F2, LV. apply Forall2_app_inv_l in F2 as (s1 & s2' & F1 & F2 & ->).
    inversion F2 as [|? st ? s2 Hst F3]; subst s2' l2. rename l into l2.
    rewrite foldM_app in HM. inv_bind HM. rename a into m0. cbn [foldM] in HM. inv_bind HM. rename a into m1.
    assert (Iy : In y (l1 ++ y :: l2)) by (apply in_or_app; right; now left).
    destruct (LV y Iy) as (_ & CFy & Sy). rewrite Ey in CFy, Sy.
    destruct (stmt_ser n d (VObj c attrs) _ _ skip fns Hb0 y st m0 m1 Hst Hb3) as (v & SV & R). rewrite Ey in SV. fold ser in SV.
    pose proof (others n d (VObj c attrs) (flag ro (c_reuse d)) (flag rc (c_conv d)) skip fns f k Hb0 SO Hf WN l1 s1 F1) as O1.
    pose proof (others n d (VObj c attrs) (flag ro (c_reuse d)) (flag rc (c_conv d)) skip fns f k Hb0 SO Hf WN l2 s2 F3) as O2.
    specialize (O1 (fun z Hz => conj (NE z (or_introl Hz)) (let (A, B) := LV z (in_or_app l1 (y :: l2) z (or_introl Hz)) in conj A (proj1 B))) [] m0 Hb).
    specialize (O2 (fun z Hz => conj (NE z (or_intror Hz)) (let (A, B) := LV z (in_or_app l1 (y :: l2) z (or_intror (in_cons y z l2 Hz))) in conj A (proj1 B))) m1 m HM).
    cbn [dget] in O1. fold ser in O1, O2.
    exists m, v. split; [reflexivity|]. split; [exact SV|].
    assert (LO : m1 = m0 -> left_out P d ser m k).
    { intros ->. unfold left_out, skey. destruct O1 as [O1|(g & mk & l & Ig & Wg & Fg & Sg & E)].
      - rewrite O1 in O2. destruct O2 as [O2|(g & mk & l & HX)]; [now left|]. right. exists g, mk, l. exact HX.
      - destruct (dget es m0 (VStr k)); [|destruct O2 as [O2|(g' & mk' & l' & HX)]; [now left|right; exists g', mk', l'; exact HX]].
        right. exists g, mk, l. rewrite E, O2. auto. }
    assert (FL : f_flatten f = false) by (unfold declared in Hf; apply filter_In in Hf as [_ Hf]; apply andb_true_iff in Hf as [_ Hf]; now apply negb_true_iff).
    destruct Hst as (rhs & ts & RH & TS & ->). cbn [s_targets s_skip] in R. rewrite Ey, targets_eq, FL in TS. cbv zeta in TS.
    assert (ET : ts = [TgtKey k]).
    { pose proof TS as TS'. inv_bind TS'. inv_bind TS'. injection TS' as <-. destruct (key_target _ _ _ a0 TS (or_introl eq_refl)) as [_ CV]. apply (conv_wire W d) in CV. congruence. }
    subst ts. 
    assert (ST : assign P [TgtKey k] v m0 = Ok m1 -> skey P m k = Some v).
    { intros A. injection A as <-. unfold assign1 in O2. cbn [fst snd] in O2. rewrite dget_dset_str, String.eqb_refl in O2. exact O2. }
    destruct Sy as [_ Sy]. destruct (snd y) as [[nm p]|] eqn:SY; cbn [option_map fst] in R.
    - destruct R as (p' & b & LK & RS & R).
      rewrite (fns_skip _ d fns fs f k y nm p Hb0 NV Hb1 SO) in LK; auto.
      + injection LK as <-. rewrite (run_skip_rule P W K n d f nm p (run n) v eq_refl Sy). exists b. split; [exact RS|]. destruct b; auto.
      + rewrite <- EL in Iy. apply filter_In in Iy. tauto.
    - rewrite (no_skip_rule P W K n d f v Sy). destruct (skip && is_vnone v); auto.
  Qed.

  (** A field without skip option, under skip_none=True *)
  Theorem C06_flattened_partial n c d attrs cc ro rc x f k :
    get_class P c = Some d -> c_transparent d = false -> no_vars d ->
    first_ser P (VObj c attrs) = None -> plain_arg cc ->
    to_dict P W K (S (S n)) (VObj c attrs) cc ro rc true = Ok x ->
    In f (declared d) -> no_rule d f -> wire_name W d f = Some k -> sole d f k ->
    let ser := ser_value P W K n d true (flag ro (c_reuse d)) (flag rc (c_conv d)) true (VObj c attrs) in
    exists kvs v, x = VMap MDict kvs /\ ser f = Ok v /\
      (v = VNone -> left_out P d ser kvs k) /\ (v <> VNone -> skey P kvs k = Some v).
  Proof.
    intros Hd TR NV FS PA H Hf NR WN SO ser.
    destruct (C05_flattened_partial n c d attrs cc ro rc true x f k Hd TR NV FS PA H Hf WN SO) as (kvs & v & -> & S0 & C).
    exists kvs, v. split; auto. split; auto. rewrite no_rule_drop in C by exact NR. cbn [andb] in C.
    split; [intros ->; exact C|]. destruct v; auto; contradiction.
  Qed.

  (** dataclasses.asdict: objects become dicts of their fields, at any depth in lists, tuples and dicts *)
  Inductive dict_form : pyval -> pyval -> Prop :=
  | df_obj c fs l : Forall2 (fun nv kv => fst kv = VStr (fst nv) /\ dict_form (snd nv) (snd kv)) fs l -> dict_form (VObj c fs) (VMap MDict l)
  | df_seq k l l' : k = KList \/ k = KTuple -> Forall2 dict_form l l' -> dict_form (VSeq k l) (VSeq k l')
  | df_map k l l' : Forall2 (fun kv kv' => dict_form (fst kv) (fst kv') /\ dict_form (snd kv) (snd kv')) l l' -> dict_form (VMap k l) (VMap k l')
  | df_set k l : k <> KList -> k <> KTuple -> dict_form (VSeq k l) (VSeq k l)
  | df_other v : (forall c fs, v <> VObj c fs) -> (forall k l, v <> VSeq k l) -> (forall k l, v <> VMap k l) -> dict_form v v.

  Lemma dict_form_std v : forall w, dict_form v w -> w = asdict_std v.
  Proof.
    induction v using pyval_ind'; intros w D; inversion D; subst; try reflexivity; cbn [asdict_std];
      try match goal with X : forall c fs, VObj _ _ <> _ |- _ => elim (X _ _ eq_refl) | X : forall k l, VSeq _ _ <> _ |- _ => elim (X _ _ eq_refl)
                        | X : forall k l, VMap _ _ <> _ |- _ => elim (X _ _ eq_refl) end.
    - assert (E : l' = map asdict_std l).
      { match goal with F : Forall2 dict_form l l' |- _ => clear -H F; induction F as [|x y l l' Q F IH]; [reflexivity|] end. inversion H; subst. cbn [map]. f_equal; auto. }
      subst l'. match goal with O : k = KList \/ k = KTuple |- _ => now destruct O as [-> | ->] end.
    - destruct k; try reflexivity; congruence.
    - f_equal. match goal with F : Forall2 _ l l' |- _ => clear -H F; induction F as [|[a b] [a' b'] l l' [Q1 Q2] F IH]; [reflexivity|] end.
      inversion H as [|? ? [H1 H2] HF]; subst. cbn [map fst snd] in *. f_equal; auto. f_equal; auto.
    - f_equal. match goal with F : Forall2 _ l ?l0 |- _ => clear -H F; induction F as [|[a b] [a' b'] l l' [Q1 Q2] F IH]; [reflexivity|] end.
      inversion H as [|? ? H1 HF]; subst. cbn [map fst snd] in *. subst a'. f_equal; auto. f_equal; auto.
  Qed.

  (** skip_if_default with a default that is an object which to_dict cannot write: the value is compared with its
      form as a dict. *)
  Theorem C05_unwritable_default_partial n c d attrs cc ro rc skip x f k cd fs w e :
    get_class P c = Some d -> c_transparent d = false -> no_vars d ->
    first_ser P (VObj c attrs) = None -> plain_arg cc ->
    f_skip_if f = None -> f_skip_if_false f = false -> level (f_skip_if_default f) (c_skip_if_default d) = true ->
    dflt f = Some (Ok (VObj cd fs)) -> to_dict P W K n (VObj cd fs) None None None false = Raise e -> dict_form (VObj cd fs) w ->
    to_dict P W K (S (S n)) (VObj c attrs) cc ro rc skip = Ok x ->
    In f (declared d) -> wire_name W d f = Some k -> sole d f k ->
    let ser := ser_value P W K n d true (flag ro (c_reuse d)) (flag rc (c_conv d)) skip (VObj c attrs) in
    exists kvs v, x = VMap MDict kvs /\ ser f = Ok v /\ if eqv P v w then left_out P d ser kvs k else skey P kvs k = Some v.
  Proof.
    intros Hd TR NV FS PA SI SF SD DF RA FO H Hf WN SO ser.
    destruct (C05_flattened_partial n c d attrs cc ro rc skip x f k Hd TR NV FS PA H Hf WN SO) as (kvs & v & -> & S0 & C).
    exists kvs, v. split; [reflexivity|]. split; [exact S0|]. unfold drop_rule in C. rewrite SI, SF, SD, DF in C. cbn [bind] in C. rewrite RA in C.
    cbn [catch bind] in C. rewrite <- (dict_form_std _ _ FO) in C. destruct C as (b & B & C). injection B as <-. exact C.
  Qed.
End SkipFlat.
Print Assumptions C05_flattened_partial.
Print Assumptions C05_unwritable_default_partial.
Print Assumptions C06_flattened_partial.

Module SkipFlatEx.
  (** A class with a flattened dataclass that has a flattened dataclass, both with skip options of their own *)
  Definition Deep := cls "Deep" [with_skip_if None true None None (fld "z" TInt)].
  Definition Kid := cls "Kid" [fld "y" TInt; flat (fld "deep" (TClass "Deep"))].
  Definition Top := cls "Top" [with_skip_if (Some (fun v => Ok match v with VInt 0 => true | _ => false end)) false None None (fld "a" TInt);
    flat (fld "kid" (TClass "Kid")); fld "b" (TOpt TInt)].
  Definition sp := prog [Deep; Kid; Top] [].
  Definition top (a : Z) (b : pyval) := VObj "Top" [("a", VInt a); ("kid", VObj "Kid" [("y", VInt 2); ("deep", VObj "Deep" [("z", VInt 0)])]); ("b", b)].
  Example written : to_dict sp W0 [] 9 (top 1 (VInt 5)) None None None true = Ok (dict [("a", VInt 1); ("y", VInt 2); ("z", VInt 0); ("b", VInt 5)]) /\
    to_dict sp W0 [] 9 (top 0 VNone) None None None true = Ok (dict [("y", VInt 2); ("z", VInt 0)]).
  Proof. split; vm_compute; reflexivity. Qed.
  Lemma merged_top d d' : merged sp d d' -> (d = Top -> d' = Kid \/ d' = Deep) /\ (d = Kid -> d' = Deep) /\ d <> Deep.
  Proof.
    induction 1 as [d f c d' I FL CH G|d d1 d2 A IHA B IHB].
    - destruct (find_class_id _ _ _ G) as [E D]. split; [|split]; intros ->.
      + destruct I as [<-|[<-|[<-|[]]]]; try discriminate FL. destruct CH as [CH|CH]; [|discriminate CH]. injection CH as <-.
        destruct D as [<-|[<-|[<-|[]]]]; try discriminate E. now left.
      + destruct I as [<-|[<-|[]]]; try discriminate FL. destruct CH as [CH|CH]; [|discriminate CH]. injection CH as <-.
        destruct D as [<-|[<-|[<-|[]]]]; try discriminate E. reflexivity.
      + destruct I as [<-|[]]. discriminate FL.
    - destruct IHA as (A1 & A2 & A3), IHB as (B1 & B2 & B3). split; [|split]; [| |exact A3].
      + intros E. destruct (A1 E) as [-> | ->]; [right; now apply B2|now destruct B3].
      + intros E. rewrite (A2 E) in B3. now destruct B3.
  Qed.
  Example sole_a : sole sp W0 Top (nth 0 (c_fields Top) (fld "" TInt)) "a" /\ sole sp W0 Top (nth 2 (c_fields Top) (fld "" TInt)) "b" /\ no_vars sp Top.
  Proof.
    assert (N : forall (l : list string), (if list_eq_dec string_dec (nodup string_dec l) l then true else false) = true -> NoDup l).
    { intros l. destruct (list_eq_dec _ _ _) as [E|]; [|discriminate]. intros _. rewrite <- E. apply NoDup_nodup. }
    split; [|split]; [split; [apply N; reflexivity|split]..|].
    - cbn. repeat constructor; cbn; intuition discriminate.
    - intros d' g M I. apply merged_top in M as (M & _). destruct (M eq_refl) as [->| ->]; repeat (destruct I as [<-|I]; [cbn; split; [|intros _]; discriminate|]); destruct I.
    - cbn. repeat constructor; cbn; intuition discriminate.
    - intros d' g M I. apply merged_top in M as (M & _). destruct (M eq_refl) as [->| ->]; repeat (destruct I as [<-|I]; [cbn; split; [|intros _]; discriminate|]); destruct I.
    - split; [reflexivity|]. intros d' M. apply merged_top in M as (M & _). destruct (M eq_refl) as [->| ->]; reflexivity.
  Qed.

  (** A default that to_dict cannot write, as its union has no member for None, with an object inside *)
  Definition Odd := cls "Odd" [fld "u" (TUnion [TInt; TString]); fld "deep" (TClass "Deep")].
  Definition odd := VObj "Odd" [("u", VNone); ("deep", VObj "Deep" [("z", VInt 0)])].
  Definition odd_dict := dict [("u", VNone); ("deep", dict [("z", VInt 0)])].
  Definition held := with_default odd (with_skip_if None false None (Some true) (fld "a" TAny)).
  Definition Holder := cls "Holder" [held].
  Definition op := prog [Deep; Odd; Holder] [].
  Example unwritable : exists e, to_dict op W0 [] 7 odd None None None false = Raise e.
  Proof. eexists. vm_compute. reflexivity. Qed.
  Example odd_form : dict_form odd odd_dict.
  Proof.
    constructor. constructor; [split; [reflexivity|]|constructor; [split; [reflexivity|]|constructor]]; cbn.
    - apply df_other; discriminate.
    - constructor. constructor; [split; [reflexivity|]|constructor]. apply df_other; discriminate.
  Qed.
  Example held_out : to_dict op W0 [] 9 (VObj "Holder" [("a", odd_dict)]) None None None false = Ok (dict []) /\
    to_dict op W0 [] 9 (VObj "Holder" [("a", dict [("u", VNone)])]) None None None false = Ok (dict [("a", dict [("u", VNone)])]) /\
    eqv op odd_dict odd_dict = true /\ dflt held = Some (Ok odd) /\ no_vars op Holder /\ sole op W0 Holder held "a".
  Proof.
    split; [vm_compute; reflexivity|]. split; [vm_compute; reflexivity|]. split; [reflexivity|]. split; [reflexivity|].
    assert (N : forall d d', merged op d d' -> d <> Holder).
    { induction 1 as [d f c d' I FL CH G|]; [|assumption]. intros ->. destruct I as [<-|[]]. discriminate FL. }
    split; [split; [reflexivity|]; intros d' M; now elim (N _ _ M)|].
    split; [repeat constructor; cbn; tauto|]. split; [cbn; repeat constructor; cbn; tauto|]. intros d' g M. now elim (N _ _ M).
  Qed.
End SkipFlatEx.
