(** Properties of from_dict for classes of any kind: fields that are not read (C32), defaults (C08),
    Optional fields (C33), missing fields (C07), unknown keys (C09, C10), the order of keys (C11),
    flattened mappings (C12), custom deserializers of fields (C34), the strict type check (C25). *)
From Coq Require Import String List ZArith Bool Ascii Lia Permutation.
From Verif Require Import Base PyVal PyType Program Compat Syntax SeRender DeRender Eval Facts Mono Spec Cover Walk DeRT Depend PropsSe Ex.
Import ListNotations.
Open Scope string_scope.
Open Scope list_scope.

Lemma mapMi_const {A B} (f : nat -> A -> res B) (g : A -> res B) l : forall i, (forall i x, f i x = g x) -> mapMi_from f i l = mapM g l.
Proof. induction l as [|x l IH]; intros i H; [reflexivity|]. cbn [mapMi_from mapM]. rewrite H. destruct (g x); cbn [bind]; try reflexivity. now rewrite IH. Qed.

Section De.
  Variables (P : program) (W : world) (K : list (tagging * pytype)).
  Notation run := (run P W K).
  Notation es := (enum_scalar P).

  (** ** The position of a field plays no role *)
  Definition at_index (i : nat) (a : dearg) : dearg :=
    {| da_name := da_name a; da_var := da_var a; da_index := i; da_iter := da_iter a;
       da_inner := da_inner a; da_case := da_case a; da_alias := da_alias a; da_rename := da_rename a;
       da_deser := da_deser a; da_flatten := da_flatten a; da_default := da_default a;
       da_parent := da_parent a; da_targs := da_targs a |}.

  Lemma data_index i a t : da_iter a = false -> da_data W (at_index i a) t = da_data W a t.
  Proof. intros I. unfold da_data. cbn [at_index da_inner da_iter da_var]. rewrite I. reflexivity. Qed.
  Lemma prim_data_index i a t : da_iter a = false -> prim_data W (at_index i a) t = prim_data W a t.
  Proof. intros I. unfold prim_data. rewrite data_index by exact I. reflexivity. Qed.
  Lemma class_index cfg i a c : da_iter a = false -> de_class W cfg (at_index i a) c = de_class W cfg a c.
  Proof. intros I. unfold de_class. rewrite data_index by exact I. cbn [at_index da_flatten da_iter da_var da_parent da_targs]. rewrite I. reflexivity. Qed.

  Lemma de_ty_index cfg t : forall a i, da_iter a = false -> de_ty P W cfg (at_index i a) t = de_ty P W cfg a t.
  Proof.
    induction t using pytype_ind'; intros ar i I; rewrite !de_ty_eq; cbn [at_index da_deser];
      (destruct (find_de P (d_class_de cfg) _) eqn:F; [destruct (da_deser ar) as [[?|]|] eqn:DS|destruct (da_deser ar) as [[?|]|] eqn:DS]);
      try (rewrite data_index by exact I; reflexivity);
      unfold de_rest, de_gcore;
      try (unfold de_prim; rewrite prim_data_index by exact I; reflexivity);
      try (rewrite data_index by exact I; reflexivity);
      try (rewrite prim_data_index by exact I; reflexivity);
      try (rewrite class_index by exact I; reflexivity);
      try reflexivity.
    1-3: rewrite data_index by exact I; destruct l as [|x l]; [reflexivity|]; inversion H as [|? ? Hx Hl]; subst;
      change (opt_inner (at_index i ar)) with (at_index i (opt_inner ar)); rewrite Hx by exact I; reflexivity.
    1-3: unfold de_gen; change (with_targs (at_index i ar) (map (targ_str P) l)) with (at_index i (with_targs ar (map (targ_str P) l)));
      rewrite data_index, class_index by exact I; reflexivity.
    1-3: rewrite IHt by exact I; reflexivity.
  Qed.

  Lemma de_render_index cfg a i t : da_iter a = false -> de_render P W cfg (at_index i a) t = de_render P W cfg a t.
  Proof.
    intros I. unfold de_render. cbn [at_index da_deser]. destruct (d_legacy cfg); [|now apply de_ty_index].
    destruct (da_deser a); [now apply de_ty_index|]. destruct (find_de _ _ _); [now apply de_ty_index|].
    set (cfg' := {| d_named := _ |}).
    assert (G : forall a t, da_iter a = false -> (e <- de_ty P W cfg' (at_index i a) t ;; dat <- da_data_or W (at_index i a) t ;; Ok (ELegacyDe t dat e)) =
      (e <- de_ty P W cfg' a t ;; dat <- da_data_or W a t ;; Ok (ELegacyDe t dat e))).
    { intros a0 t0 I0. rewrite de_ty_index by exact I0. unfold da_data_or. rewrite data_index by exact I0. reflexivity. }
    destruct t; try (apply G; exact I).
    change (with_targs (at_index i a) (map (targ_str P) args)) with (at_index i (with_targs a (map (targ_str P) args))). apply G. exact I.
  Qed.

  (** ** Statements of the generated function *)

  Definition fieldarg (d : classdef) (f : fielddef) (var : expr) : dearg := field_arg d f 0 false (c_rename_all d) var.

  (** The statement for a field; [known]: keys known to the class; [direct]: it has a flattened mapping *)
  Definition field_stmt (d : classdef) (known : list string) (direct : bool) (f : fielddef) : res dstmt :=
    if is_flat_dict_field f then Ok (DsExtra (f_name f))
    else
      pv <- match flat_child f with
            | Some c =>
              match get_class P c with
              | None => Raise XAttr
              | Some d' =>
                ck <- known_fields P W (class_fuel P) d' ;;
                Ok (Some (mkProj ck known (has_flat P (class_fuel P) d') direct), EVar (flat_var (f_name f)))
              end
            | None => Ok (None, data_var)
            end ;;
      e <- de_render P W (de_cfg d true) (fieldarg d f (snd pv)) (f_type f) ;;
      if has_some (f_default f) then Ok (DsField (f_name f) (fst pv) e None)
      else k <- da_key W (fieldarg d f (snd pv)) ;; Ok (DsField (f_name f) (fst pv) e (Some k)).

  Definition direct_flat (d : classdef) : bool := existsb is_flat_dict_field (filter read (c_fields d)).

  Lemma defields_same d all : defields d = Ok all -> all = c_fields d.
  Proof.
    unfold defields. intros H. apply mapM_Ok in H. induction H as [|f g l l' Hf H IH]; [reflexivity|].
    inv_bind Hf. inv_bind Hf. injection Hf as <-. now rewrite IH.
  Qed.

  Lemma render_dict_eq d : c_transparent d = false ->
    render_from_dict P W d =
    (_ <- defields d ;;
     known <- known_fields P W (class_fuel P) d ;;
     l <- mapM (field_stmt d known (direct_flat d)) (filter read (c_fields d)) ;;
     if check_args false (force_kw false (c_fields d)) then
       Ok (DbDict (if c_deny d && negb (direct_flat d) then Some known else None) (if direct_flat d then Some known else None)
             l (force_kw false (c_fields d)))
     else Raise XSyntax).
  Proof.
    intros T. unfold render_from_dict. rewrite T. destruct (defields d) as [all| |] eqn:E; cbn [bind]; try reflexivity.
    apply defields_same in E. subst all. unfold direct_flat. rewrite (filter_ext_in' read renderable) by (intros; symmetry; apply renderable_read).
    destruct (known_fields P W (class_fuel P) d) as [known| |]; cbn [bind]; try reflexivity.
    rewrite (mapMi_const _ (field_stmt d known (existsb is_flat_dict_field (filter renderable (c_fields d))))); [reflexivity|].
    intros i f. unfold field_stmt, fieldarg. destruct (is_flat_dict_field f); [reflexivity|].
    assert (E : forall v, de_render P W (de_cfg d true) (field_arg d f i false (c_rename_all d) v) (f_type f) =
                de_render P W (de_cfg d true) (field_arg d f 0 false (c_rename_all d) v) (f_type f)).
    { intros v. exact (de_render_index (de_cfg d true) (field_arg d f 0 false (c_rename_all d) v) i (f_type f) eq_refl). }
    destruct (flat_child f).
    - destruct (get_class P s); [|reflexivity]. destruct (known_fields P W (class_fuel P) c) as [ck| |]; cbn [bind]; try reflexivity.
      cbn [fst snd]. rewrite E. reflexivity.
    - cbn [bind fst snd]. rewrite E. reflexivity.
  Qed.

  Definition ctx_of (d : classdef) (ro : option bool) (dn : option numhook) (mg : option pytype) (mgtv vta : option (list string)) : ctx :=
    de_ctx P d (flag ro (c_reuse d)) dn mg (match mgtv with Some (_ :: _) => mgtv | _ => c_tvars d end) vta.

  (** Entries with unknown keys *)
  Definition unknown_of (known : list string) (kvs : list (pyval * pyval)) : list (pyval * pyval) :=
    filter (fun kv => negb (key_in P (fst kv) known)) kvs.

  (** What the statement of a field computes *)
  Definition takes (n : nat) (d : classdef) (cx : ctx) (known : list string) (data : pyval) (f : fielddef) (v : pyval) : Prop :=
    exists s ex, field_stmt d known (direct_flat d) f = Ok s /\
      (direct_flat d = true -> exists kvs, items_or_empty P data = Ok kvs /\ ex = unknown_of known kvs) /\
      run_dstmt P W (run n) cx data ex [] s = Ok [(f_name f, v)].

  Lemma run_dstmt_shape call cx data ex s vals vals' : run_dstmt P W call cx data ex vals s = Ok vals' ->
    exists x v, vals' = vals ++ [(x, v)] /\ run_dstmt P W call cx data ex [] s = Ok [(x, v)].
  Proof.
    destruct s as [x|x pr e ms]; cbn [run_dstmt]; intros H.
    - injection H as <-. eauto.
    - inv_bind H. rewrite Hb. cbn [bind]. destruct ms as [k|], (eval P W call cx _ e) as [v|ex0|]; try discriminate.
      + injection H as <-. eauto.
      + destruct ex0; discriminate.
      + injection H as <-. eauto.
  Qed.

  Lemma stmt_name d known b f s : field_stmt d known b f = Ok s ->
    (exists x, s = DsExtra x /\ x = f_name f) \/ (exists x pr e ms, s = DsField x pr e ms /\ x = f_name f).
  Proof.
    unfold field_stmt. destruct (is_flat_dict_field f); [injection 1 as <-; eauto|]. intros H. inv_bind H. inv_bind H.
    destruct (has_some (f_default f)); [injection H as <-; right; eauto 6|]. inv_bind H. injection H as <-. right; eauto 6.
  Qed.

  (** The outcome of the statements *)
  Lemma stmts_inv d known b call cx data ex fs ss :
    Forall2 (fun f s => field_stmt d known b f = Ok s) fs ss -> forall vals vals',
    foldM (run_dstmt P W call cx data ex) ss vals = Ok vals' ->
    exists nvs, vals' = vals ++ nvs /\
      Forall2 (fun f nv => exists s, field_stmt d known b f = Ok s /\ fst nv = f_name f /\ run_dstmt P W call cx data ex [] s = Ok [nv]) fs nvs.
  Proof.
    induction 1 as [|f s fs ss Hs H IH]; intros vals vals' E.
    - injection E as <-. exists []. split; [now rewrite app_nil_r|constructor].
    - cbn [foldM] in E. inv_bind E. destruct (run_dstmt_shape _ _ _ _ _ _ _ Hb) as (x & v & -> & R).
      destruct (IH _ _ E) as (nvs & -> & F). exists ((x, v) :: nvs). rewrite <- app_assoc. split; [reflexivity|].
      constructor; [|exact F]. exists s. split; [exact Hs|]. split; [|exact R]. cbn [fst].
      destruct (stmt_name _ _ _ _ _ Hs) as [(y & -> & ->)|(y & pr & e & ms & -> & ->)]; cbn [run_dstmt] in R.
      + cbn [app] in R. injection R as <- _. reflexivity.
      + inv_bind R. cbn [app] in R. destruct ms, (eval _ _ _ _ _ e) as [|ex0|]; try discriminate; try (injection R as <- <-; reflexivity).
        destruct ex0; discriminate.
  Qed.

  (** The constructor *)
  Definition init_one (given : list (string * pyval)) (f : fielddef) : res (list (string * pyval)) :=
    if f_init f then
      match slookup (f_name f) given with
      | Some v => Ok [(f_name f, v)]
      | None => match default_value f with
                | Some r => v <- r ;; Ok [(f_name f, v)]
                | None => Raise XType
                end
      end
    else match default_value f with
         | Some r => v <- r ;; Ok [(f_name f, v)]
         | None => Ok []
         end.

  Lemma init_one_name given f out x : init_one given f = Ok out -> In x (map fst out) -> x = f_name f.
  Proof.
    unfold init_one. intros H Hx. destruct (f_init f); [destruct (slookup (f_name f) given)|].
    - injection H as <-. destruct Hx as [<-|[]]. reflexivity.
    - destruct (default_value f) as [r|]; [|discriminate]. inv_bind H. injection H as <-. destruct Hx as [<-|[]]; reflexivity.
    - destruct (default_value f) as [r|]; [|injection H as <-; contradiction]. inv_bind H. injection H as <-. destruct Hx as [<-|[]]; reflexivity.
  Qed.

  Lemma init_lookup given fs ls : NoDup (map f_name fs) -> Forall2 (fun f out => init_one given f = Ok out) fs ls ->
    forall f, In f fs -> exists out, init_one given f = Ok out /\ slookup (f_name f) (concat ls) = slookup (f_name f) out.
  Proof.
    intros ND F. induction F as [|g out fs ls Hg F IH]; intros f Hf; [contradiction|]. cbn [map] in ND. inversion ND as [|? ? N1 N2]; subst.
    cbn [concat]. rewrite slookup_app. destruct Hf as [->|Hf].
    - exists out. split; [exact Hg|]. destruct (slookup (f_name f) out); [reflexivity|].
      apply slookup_None. intros H. apply N1. clear - F H. induction F as [|h o fs ls Hh F IH]; [contradiction|].
      cbn [concat] in H. rewrite map_app in H. apply in_app_or in H as [H|H]; [left|right; auto].
      symmetry. eapply init_one_name; eauto.
    - destruct (IH N2 f Hf) as (o & E & ->). exists o. split; [exact E|].
      assert (L : slookup (f_name f) out = None).
      { apply slookup_None. intros H. apply (init_one_name _ _ _ _ Hg) in H. apply N1. rewrite <- H. now apply in_map. }
      now rewrite L.
  Qed.

  Lemma ctor_inv d val o : NoDup (map f_name (c_fields d)) ->
    construct P W d (map val (fst (pk false (c_fields d)))) (map (fun f => (f_name f, val f)) (snd (pk false (c_fields d)))) = Ok o ->
    exists attrs, c_post d (VObj (c_id d) attrs) = Ok o /\
      (forall f, In f (c_fields d) -> read f = true -> slookup (f_name f) attrs = Some (val f) /\ (checked d = true -> bear P W (val f) (f_type f) = true)) /\
      (forall f, In f (c_fields d) -> read f = false ->
         match dflt f with
         | Some r => exists v, r = Ok v /\ slookup (f_name f) attrs = Some v
         | None => f_init f = false /\ slookup (f_name f) attrs = None
         end).
  Proof.
    intros ND H. unfold construct, positional in H. destruct (pk_prefix (c_fields d)) as [q Hq]. rewrite Hq, bind_pos_prefix in H.
    set (given := map (fun f => (f_name f, val f)) (fst (pk false (c_fields d))) ++ map (fun f => (f_name f, val f)) (snd (pk false (c_fields d)))) in *.
    assert (GV : forall f, In f (c_fields d) -> slookup (f_name f) given = if read f then Some (val f) else None).
    { intros f Hf. destruct (slookup (f_name f) given) as [v|] eqn:L.
      - apply slookup_In in L. unfold given in L. rewrite <- map_app in L. apply in_map_iff in L as [g [E Hg]]. apply in_app_iff in Hg.
        apply pk_In in Hg as [Hg R]. injection E as E <-. assert (g = f) by (eapply same_field; eauto). subst. now rewrite R.
      - destruct (read f) eqn:R; [|reflexivity]. apply slookup_None in L. exfalso. apply L. unfold given. rewrite <- map_app, map_map.
        apply in_map_iff. exists f. split; [reflexivity|]. apply in_app_iff. now apply pk_In. }
    destruct (checked d && negb (args_ok P W d given)) eqn:CH; [discriminate|].
    destruct (no_dup_args _ _ _); [|discriminate]. inv_bind H. rename a into attrs. exists attrs. split; [exact H|].
    unfold init_fields in Hb. inv_bind Hb. injection Hb as <-. apply mapM_Ok in Hb0. rename a into ls.
    assert (LK := fun f Hf => init_lookup given (c_fields d) ls ND Hb0 f Hf).
    split; intros f Hf R; destruct (LK f Hf) as (out & E & ->); unfold init_one in E; rewrite (GV f Hf), R in E.
    - assert (I : f_init f = true) by (unfold read in R; now destruct (f_init f)). rewrite I in E. injection E as <-.
      cbn [slookup]. rewrite String.eqb_refl. split; [reflexivity|]. intros CK. rewrite CK in CH. cbn [andb] in CH. apply negb_false_iff in CH.
      unfold args_ok in CH. rewrite forallb_forall in CH. specialize (CH f Hf). now rewrite (GV f Hf), R in CH.
    - change (default_value f) with (dflt f) in E. destruct (dflt f) as [r|].
      + destruct (f_init f); inv_bind E; injection E as <-; eexists; (split; [exact Hb|]); cbn [slookup]; now rewrite String.eqb_refl.
      + destruct (f_init f); [discriminate|]. injection E as <-. auto.
  Qed.

  (** ** What from_dict does, field by field *)
  Theorem from_dict_fields n d data ro dn mg mgtv vta o :
    c_transparent d = false -> NoDup (map f_name (c_fields d)) ->
    run (S n) (QDe d data true ro dn mg mgtv vta) = Ok o ->
    exists known attrs,
      known_fields P W (class_fuel P) d = Ok known /\
      c_post d (VObj (c_id d) attrs) = Ok o /\
      (c_deny d = true -> direct_flat d = false ->
         exists kvs, items_or_empty P data = Ok kvs /\ forall kv, In kv kvs -> key_in P (fst kv) known = true) /\
      (forall f, In f (c_fields d) -> read f = true -> exists v,
         slookup (f_name f) attrs = Some v /\ takes n d (ctx_of d ro dn mg mgtv vta) known data f v /\
         (checked d = true -> bear P W v (f_type f) = true)) /\
      (forall f, In f (c_fields d) -> read f = false ->
         match dflt f with
         | Some r => exists v, r = Ok v /\ slookup (f_name f) attrs = Some v
         | None => f_init f = false /\ slookup (f_name f) attrs = None
         end).
  Proof.
    intros T ND H. cbn [Eval.run step render_de] in H. rewrite (render_dict_eq d T) in H. inv_bind H. inv_bind Hb.
    inv_bind Hb. inv_bind Hb. destruct (check_args _ _); [|discriminate]. injection Hb as <-.
    rename a1 into known, a2 into ss. clear a0 Hb0. cbv zeta in H. fold (ctx_of d ro dn mg mgtv vta) in H.
    set (cx := ctx_of d ro dn mg mgtv vta) in *. cbn [run_de_body] in H.
    inv_bind H. inv_bind H. inv_bind H. rename a into u, a0 into ex, a1 into vals.
    apply mapM_Ok in Hb2. destruct (stmts_inv _ _ _ _ _ _ _ _ _ Hb2 _ _ Hb3) as (nvs & -> & F). cbn [app] in *.
    unfold run_ctor, construct_user in H.
    set (val := fun f => match slookup (f_name f) nvs with Some v => v | None => VNone end).
    assert (LV : forall f, In f (filter read (c_fields d)) -> exists nv, In nv nvs /\ fst nv = f_name f /\ slookup (f_name f) nvs = Some (snd nv) /\
       exists s, field_stmt d known (direct_flat d) f = Ok s /\ run_dstmt P W (run n) cx data ex [] s = Ok [nv]).
    { assert (ND' : NoDup (map f_name (filter read (c_fields d)))).
      { clear - ND. induction (c_fields d) as [|f l IH]; [constructor|]. cbn [map] in ND. inversion ND as [|? ? N1 N2]; subst. cbn [filter].
        destruct (read f); [|auto]. cbn [map]. constructor; auto. intros H. apply N1. apply in_map_iff in H as [g [<- Hg]].
        apply filter_In in Hg as [Hg _]. now apply in_map. }
      clear - F ND'. induction F as [|f nv fs nvs (s & S1 & S2 & S3) F IH]; intros g Hg; [contradiction|].
      cbn [map] in ND'. inversion ND' as [|? ? N1 N2]; subst. destruct nv as [x v]. cbn [fst] in S2. subst x. cbn [slookup].
      destruct Hg as [->|Hg].
      - exists (f_name g, v). rewrite String.eqb_refl. split; [now left|]. split; [reflexivity|]. split; [reflexivity|]. eauto.
      - destruct (IH N2 g Hg) as (nv & I1 & I2 & I3 & I4). exists nv. destruct (String.eqb_spec (f_name f) (f_name g)) as [E|E].
        + exfalso. apply N1. rewrite E. now apply in_map.
        + split; [now right|]. split; [exact I2|]. split; [exact I3|exact I4]. }
    rewrite (split_pk nvs val) in H.
    2: { intros f Hf R. destruct (LV f) as (nv & _ & _ & E & _); [apply filter_In; auto|]. unfold val. now rewrite E. }
    destruct (construct P W (x_cls cx) _ _) as [o'| |] eqn:C; try discriminate. injection H as ->.
    destruct (ctor_inv d val o ND C) as (attrs & A1 & A2 & A3). exists known, attrs. split; [exact Hb1|]. split; [exact A1|]. split; [|split; [|exact A3]].
    - intros DN DF. rewrite DN, DF in Hb. cbn [andb negb] in Hb. inv_bind Hb. exists a. split; [exact Hb4|].
      destruct (forallb _ a) eqn:FB; [|discriminate]. rewrite forallb_forall in FB. exact FB.
    - intros f Hf R. destruct (A2 f Hf R) as [B1 B2]. exists (val f). split; [exact B1|]. split; [|exact B2].
      destruct (LV f) as (nv & _ & E1 & E & s & S1 & S2); [apply filter_In; auto|]. exists s, ex. split; [exact S1|]. split.
      + intros DF. rewrite DF in Hb0. inv_bind Hb0. injection Hb0 as <-. exists a. split; [exact Hb4|reflexivity].
      + rewrite S2. unfold val. rewrite E. destruct nv; cbn [fst snd] in *. now subst.
  Qed.

  (** ** Calls of from_dict *)

  (** The class argument of from_dict stands for the dataclass [d], possibly with type arguments, and
      no global deserializer handles it. *)
  Definition class_of (t : pytype) : option string :=
    match unalias t with TClass c | TGen c _ => Some c | _ => None end.
  Definition targets (t : pytype) (d : classdef) : Prop :=
    exists c, class_of t = Some c /\ get_class P c = Some d /\ first_de P (TClass c) = None.

  Lemma from_obj_eq n tg t d data nm ro dn : targets t d -> type_is data (unalias t) = false ->
    run (S n) (QFromObj (tg, t) data nm ro dn) =
    catch (run n (QDe d data nm ro dn (Some (unalias t)) None None))
      (fun e => match e with XUser e => Raise e | _ => Raise (XSerde (MWrap e)) end).
  Proof.
    intros (c & HC & Hd & FD) TI. cbn [Eval.run step]. rewrite TI. unfold class_of in HC.
    destruct (unalias t); try discriminate; injection HC as ->; cbn [is_union andb]; unfold from_obj_body; rewrite FD, Hd; reflexivity.
  Qed.

  Lemma from_obj_inv n tg t d data nm ro dn o : targets t d -> type_is data (unalias t) = false ->
    run n (QFromObj (tg, t) data nm ro dn) = Ok o ->
    exists m, n = S (S m) /\ run (S m) (QDe d data nm ro dn (Some (unalias t)) None None) = Ok o.
  Proof.
    intros HT TI H. destruct n as [|[|m]]; [discriminate| |].
    - rewrite (from_obj_eq _ _ _ _ _ _ _ _ HT TI) in H. discriminate.
    - rewrite (from_obj_eq _ _ _ _ _ _ _ _ HT TI) in H. exists m. split; [reflexivity|].
      destruct (run (S m) _) as [r|e|]; cbn [catch] in H; [exact H|destruct e; discriminate|discriminate].
  Qed.

  Lemma map_not_inst m kvs t d : targets t d -> type_is (VMap m kvs) (unalias t) = false.
  Proof. intros (c & HC & _). unfold class_of in HC. destruct (unalias t); try discriminate; destruct m; reflexivity. Qed.

  (** Classes read from mappings, with differently named fields *)
  Definition dictlike (d : classdef) : Prop := c_transparent d = false /\ NoDup (map f_name (c_fields d)).

  (** The context in which the generated code of [d] runs when from_dict is called with [t] *)
  Definition top_ctx (d : classdef) (t : pytype) (ro : option bool) (dn : option numhook) : ctx :=
    ctx_of d ro dn (Some (unalias t)) None None.

  (** What from_dict computes for a field from the whole mapping: the code generated for it, run on it *)
  Definition de_value (n : nat) (d : classdef) (cx : ctx) (data : pyval) (f : fielddef) : res pyval :=
    e <- de_render P W (de_cfg d true) (fieldarg d f data_var) (f_type f) ;;
    eval P W (run n) cx [("data", data)] e.

  Lemma takes_plain n d cx known data f v : f_flatten f = false ->
    takes n d cx known data f v -> de_value n d cx data f = Ok v.
  Proof.
    intros FL (s & ex & S1 & _ & S2). unfold field_stmt, is_flat_dict_field, flat_child in S1. rewrite FL in S1. cbn [andb bind fst snd] in S1.
    inv_bind S1. unfold de_value. rewrite Hb. cbn [bind].
    destruct (has_some (f_default f)).
    - injection S1 as <-. cbn [run_dstmt bind] in S2. destruct (eval _ _ _ _ _ a); try discriminate. injection S2 as ->. reflexivity.
    - inv_bind S1. injection S1 as <-. cbn [run_dstmt bind] in S2. destruct (eval _ _ _ _ _ a) as [|x|]; try discriminate.
      + injection S2 as ->. reflexivity.
      + destruct x; discriminate.
  Qed.

  Lemma takes_dict n d cx known data f v : In f (c_fields d) -> read f = true -> is_flat_dict_field f = true ->
    takes n d cx known data f v -> exists kvs, items_or_empty P data = Ok kvs /\ v = VMap MDict (unknown_of known kvs).
  Proof.
    intros Hf R FD (s & ex & S1 & E & S2). unfold field_stmt in S1. rewrite FD in S1. injection S1 as <-.
    cbn [run_dstmt app] in S2. injection S2 as <-. destruct E as (kvs & E1 & ->); [|eauto].
    unfold direct_flat. apply existsb_exists. exists f. split; [now apply filter_In|exact FD].
  Qed.

  (** The object as the generated constructor call leaves it, before __post_init__ *)
  Lemma from_dict_object n tg t d data ro dn o : targets t d -> dictlike d -> type_is data (unalias t) = false ->
    from_dict P W K n (tg, t) data ro dn = Ok o ->
    exists m known attrs, n = S (S m) /\ known_fields P W (class_fuel P) d = Ok known /\
      c_post d (VObj (c_id d) attrs) = Ok o /\
      (c_deny d = true -> direct_flat d = false ->
         exists kvs, items_or_empty P data = Ok kvs /\ forall kv, In kv kvs -> key_in P (fst kv) known = true) /\
      (forall f, In f (c_fields d) -> read f = true -> exists v,
         slookup (f_name f) attrs = Some v /\ takes m d (top_ctx d t ro dn) known data f v /\
         (checked d = true -> bear P W v (f_type f) = true)) /\
      (forall f, In f (c_fields d) -> read f = false ->
         match dflt f with
         | Some r => exists v, r = Ok v /\ slookup (f_name f) attrs = Some v
         | None => f_init f = false /\ slookup (f_name f) attrs = None
         end).
  Proof.
    intros HT (T & ND) TI H. unfold from_dict in H. destruct (from_obj_inv _ _ _ _ _ _ _ _ _ HT TI H) as (m & -> & R).
    destruct (from_dict_fields m d data ro dn (Some (unalias t)) None None o T ND R) as (known & attrs & A).
    exists m, known, attrs. split; [reflexivity|]. exact A.
  Qed.

  (** ** C32 *)
  Theorem C32_unread n tg t d data ro dn o f :
    targets t d -> dictlike d -> type_is data (unalias t) = false -> In f (c_fields d) -> read f = false ->
    from_dict P W K n (tg, t) data ro dn = Ok o ->
    exists attrs, c_post d (VObj (c_id d) attrs) = Ok o /\
      match dflt f with
      | Some r => exists v, r = Ok v /\ slookup (f_name f) attrs = Some v
      | None => f_init f = false /\ slookup (f_name f) attrs = None
      end.
  Proof.
    intros HT HD TI Hf R H. destruct (from_dict_object _ _ _ _ _ _ _ _ HT HD TI H) as (m & known & attrs & _ & _ & A & _ & _ & B).
    exists attrs. split; [exact A|]. now apply B.
  Qed.

  (** ** C25 *)

  (** The element of the container [v] at which the checker looks *)
  Definition looked_at {A} (v : pyval) (l : list A) (x : A) : Prop := exists n, w_pick W v = Some n /\ nth_opt l n = Some x.

  (** [looks v t]: the value has the type, as far as a checker can tell that looks at one element of a
      homogeneous container.  Scalars, classes and fixed tuples are checked completely. *)
  Inductive looks : pyval -> pytype -> Prop :=
  | L_prim v p : isinst_prim P v p = true -> looks v (TPrim p)
  | L_new v n p : isinst_prim P v p = true -> looks v (TNewType n p)
  | L_none : looks VNone TNone
  | L_any v : looks v TAny
  | L_var v n : looks v (TVar n)
  | L_union v l t : In t l -> looks v t -> looks v (TUnion l)
  | L_list k s l a : list_inst k s = true -> (forall x, looked_at (VSeq s l) l x -> looks x a) -> looks (VSeq s l) (TList k a)
  | L_chars s a : looks (VStr s) a -> looks (VStr s) (TList LSequence a)
  | L_set k s l a : set_inst k s = true -> (forall x, looked_at (VSeq s l) l x -> looks x a) -> looks (VSeq s l) (TSet k a)
  | L_deque l a : (forall x, looked_at (VSeq KDeque l) l x -> looks x a) -> looks (VSeq KDeque l) (TDeque a)
  | L_vartuple l a : (forall x, looked_at (VSeq KTuple l) l x -> looks x a) -> looks (VSeq KTuple l) (TVarTuple a)
  | L_tuple l ts : Forall2 looks l ts -> looks (VSeq KTuple l) (TTuple ts)
  | L_dict k m l a b : dict_inst k m = true ->
      (forall x y, looked_at (VMap m l) l (x, y) -> looks x a /\ looks y b) -> looks (VMap m l) (TDict k a b)
  | L_counter l a : (forall x y, looked_at (VMap MCounter l) l (x, y) -> looks x a) -> looks (VMap MCounter l) (TCounter a)
  | L_bare v b : bare_inst b v = true -> looks v (TBare b)
  | L_lit v l x : In x l -> eqv P (lit_val x) v = true -> looks v (TLit l)
  | L_classvar v a : looks v a -> looks v (TClassVar a)
  | L_alias v n a : looks v a -> looks v (TAlias n a)
  | L_named v t : nominal t = true -> named_inst P v t = true -> looks v t.

  Lemma looked_picked {A} v (l : list A) x : looked_at v l x -> picked W v l = Some x.
  Proof. intros (n & E & H). unfold picked. now rewrite E. Qed.

  Lemma bear_looks t : forall v, bear P W v t = true -> looks v t.
  Proof.
    induction t using pytype_ind'; intros v HB; cbn [bear] in HB; try (constructor; auto; fail).
    - destruct v; try discriminate. constructor.
    - apply existsb_exists in HB as [t [Ht HB]]. rewrite Forall_forall in H. eapply L_union; eauto.
    - destruct v; try discriminate; [destruct k; try discriminate; now apply L_chars, IHt|].
      apply andb_prop in HB as [H1 H2]. apply L_list; [exact H1|]. intros x Hx. apply looked_picked in Hx. rewrite Hx in H2. auto.
    - destruct v; try discriminate. apply andb_prop in HB as [H1 H2]. apply L_set; [exact H1|].
      intros x Hx. apply looked_picked in Hx. rewrite Hx in H2. auto.
    - destruct v as [| | | | | |k l| | | | | |]; try discriminate. destruct k; try discriminate. constructor.
      intros x Hx. apply looked_picked in Hx. rewrite Hx in HB. auto.
    - destruct v as [| | | | | | |k l| | | | |]; try discriminate. destruct k; try discriminate. constructor.
      intros x y Hx. apply looked_picked in Hx. rewrite Hx in HB. auto.
    - destruct v; try discriminate. apply andb_prop in HB as [H1 H2]. apply L_dict; [exact H1|].
      intros x y Hx. apply looked_picked in Hx. rewrite Hx in H2. apply andb_prop in H2 as [H2 H3]. auto.
    - destruct v as [| | | | | |k l'| | | | | |]; try discriminate. destruct k; try discriminate. constructor.
      revert l' HB. induction H as [|t ts Ht H IH]; intros [|x l'] HB; try discriminate; constructor.
      + apply andb_prop in HB as [HB _]. auto.
      + apply andb_prop in HB as [_ HB]. auto.
    - destruct v as [| | | | | |k l| | | | | |]; try discriminate. destruct k; try discriminate. constructor.
      intros x Hx. apply looked_picked in Hx. rewrite Hx in HB. auto.
    - apply existsb_exists in HB as [x [Hx HB]]. apply andb_prop in HB as [HB _]. eapply L_lit; eauto.
  Qed.

  Theorem C25_strict n tg t d data ro dn o :
    targets t d -> dictlike d -> type_is data (unalias t) = false -> c_check d = TcStrict ->
    from_dict P W K n (tg, t) data ro dn = Ok o ->
    exists attrs, c_post d (VObj (c_id d) attrs) = Ok o /\
      forall f, In f (c_fields d) -> read f = true -> exists v, slookup (f_name f) attrs = Some v /\ looks v (f_type f).
  Proof.
    intros HT HD TI CK H. destruct (from_dict_object _ _ _ _ _ _ _ _ HT HD TI H) as (m & known & attrs & _ & _ & A & _ & B & _).
    exists attrs. split; [exact A|]. intros f Hf R. destruct (B f Hf R) as (v & V1 & _ & V3). exists v. split; [exact V1|].
    apply bear_looks, V3. unfold checked. now rewrite CK.
  Qed.

  (** ** C12: a flattened dict receives the entries with unknown keys *)

  (** Keys known to a class without flattened dataclasses: wire names and aliases of the other fields *)
  Definition own_keys (d : classdef) : list string :=
    concat (map (key_names W d) (filter (fun f => negb (is_flat_dict_field f)) (c_fields d))).

  Lemma known_own n d known : c_transparent d = false -> (forall f, In f (c_fields d) -> flat_child f = None) ->
    known_fields P W n d = Ok known -> known = own_keys d.
  Proof.
    intros T FC H.
    assert (G : forall (rec : string -> res (list string)) fs ls,
      mapM (fun f => if is_flat_dict_field f then Ok []
                     else match flat_child f with
                          | Some c => rec c
                          | None => k <- conv W (c_rename_all d) (f_name f) (f_rename f) ;; Ok (k :: f_alias f)
                          end) fs = Ok ls ->
      (forall f, In f fs -> flat_child f = None) ->
      concat ls = concat (map (key_names W d) (filter (fun f => negb (is_flat_dict_field f)) fs))).
    { intros rec fs ls E F. apply mapM_Ok in E. induction E as [|f l fs ls Hl E IH]; [reflexivity|].
      cbn [concat filter]. rewrite IH by (intros; apply F; now right). destruct (is_flat_dict_field f); cbn [negb].
      - injection Hl as <-. reflexivity.
      - rewrite (F f) in Hl by now left. inv_bind Hl. injection Hl as <-. cbn [map concat]. unfold key_names.
        now rewrite (conv_wire W d f _ Hb). }
    destruct n; cbn [known_fields] in H; rewrite T in H; inv_bind H; injection H as <-.
    - exact (G (fun _ => Ok []) _ _ Hb FC).
    - exact (G (fun c => match get_class P c with Some d' => known_fields P W n d' | None => Raise XAttr end) _ _ Hb FC).
  Qed.

  Theorem C12_collects_partial n tg t d m kvs ro dn o f :
    targets t d -> dictlike d -> In f (c_fields d) -> read f = true -> f_flatten f = true -> is_flatten_dict (f_type f) = true ->
    (forall f, In f (c_fields d) -> flat_child f = None) ->
    from_dict P W K n (tg, t) (VMap m kvs) ro dn = Ok o ->
    exists attrs, c_post d (VObj (c_id d) attrs) = Ok o /\
      slookup (f_name f) attrs = Some (VMap MDict (filter (fun kv => negb (existsb (fun k => eqv P (VStr k) (fst kv)) (own_keys d))) kvs)).
  Proof.
    intros HT HD Hf R FL FD FC H.
    destruct (from_dict_object _ _ _ _ _ _ _ _ HT HD (map_not_inst _ _ _ _ HT) H) as (n' & known & attrs & _ & KN & A & _ & B & _).
    exists attrs. split; [exact A|]. destruct (B f Hf R) as (v & V1 & V2 & _). rewrite V1. f_equal.
    rewrite (known_own _ _ _ (proj1 HD) FC KN) in V2.
    apply takes_dict in V2 as (kvs' & E & ->); [|assumption|assumption|unfold is_flat_dict_field; now rewrite FL, FD].
    unfold items_or_empty in E. destruct kvs as [|kv kvs]; [destruct m; injection E as <-; reflexivity|].
    destruct m; injection E as <-; reflexivity.
  Qed.

  (** ** Code of a field with default *)

  Definition undef (a : dearg) : dearg :=
    {| da_name := da_name a; da_var := da_var a; da_index := da_index a; da_iter := da_iter a;
       da_inner := da_inner a; da_case := da_case a; da_alias := da_alias a; da_rename := da_rename a;
       da_deser := da_deser a; da_flatten := da_flatten a; da_default := false;
       da_parent := da_parent a; da_targs := da_targs a |}.

  Definition exists_expr (a : dearg) : res expr :=
    match da_alias a with
    | [] => k <- da_key W a ;; Ok (EIn k (da_var a))
    | _ => ks <- alias_lits a (da_name a) ;; Ok (EInAliases (da_var a) ks)
    end.

  (** [e] is [e0] behind tests for the key *)
  Inductive guarded (x : expr) (nm : string) (e0 : expr) : expr -> Prop :=
  | G_once : guarded x nm e0 (EIf x e0 (EDefault nm))
  | G_more e : guarded x nm e0 e -> guarded x nm e0 (EIf x e (EDefault nm)).

  Lemma default_inv a t e e' : da_iter a = false -> da_flatten a = false -> da_default a = true ->
    de_default P W a t e = Ok e' -> exists x, exists_expr a = Ok x /\ e' = EIf x e (EDefault (da_name a)).
  Proof.
    intros I FL D H. unfold de_default in H. rewrite I, FL, D in H. cbn [andb negb] in H. inv_bind H. injection H as <-.
    exists a0. split; [exact Hb|reflexivity].
  Qed.
  Lemma default_undef a t e : de_default P W (undef a) t e = Ok e.
  Proof. reflexivity. Qed.

  Lemma gcore_undef cfg a t : match t with TAlias _ _ => False | _ => True end -> de_gcore P W cfg (undef a) t = de_gcore P W cfg a t.
  Proof. destruct t; intros H; try contradiction; reflexivity. Qed.

  Lemma de_ty_guarded cfg t : forall a e, da_iter a = false -> da_flatten a = false -> da_default a = true ->
    de_ty P W cfg a t = Ok e ->
    exists x e0, exists_expr a = Ok x /\ de_ty P W cfg (undef a) t = Ok e0 /\ guarded x (da_name a) e0 e.
  Proof.
    assert (ST : forall a t c e, da_iter a = false -> da_flatten a = false -> da_default a = true ->
      (e0 <- c ;; de_default P W a t e0) = Ok e -> exists x e0, exists_expr a = Ok x /\ c = Ok e0 /\ guarded x (da_name a) e0 e).
    { intros a t' c e I FL D H. inv_bind H. destruct (default_inv _ _ _ _ I FL D H) as (x & X & ->). exists x, a0. repeat split; auto. constructor. }
    assert (EX : forall a x y, exists_expr a = Ok x -> exists_expr a = Ok y -> x = y) by (intros; congruence).
    induction t using pytype_ind'; intros ar ex I FL D HE; rewrite de_ty_eq in HE |- *; cbn [undef da_deser];
      (destruct (find_de P (d_class_de cfg) _) eqn:F; [destruct (da_deser ar) as [[?|]|] eqn:DS|destruct (da_deser ar) as [[?|]|] eqn:DS]);
      try (inv_bind HE; destruct (default_inv _ _ _ _ I FL D HE) as (x & X & ->); exists x; eexists; (split; [exact X|]);
           (split; [change (da_data W (undef ar)) with (da_data W ar); rewrite Hb; cbn [bind]; rewrite default_undef; reflexivity|constructor]); fail);
      unfold de_rest in HE |- *.
    all: try (destruct (ST _ _ _ _ I FL D HE) as (x & e0 & X & C & G); exists x, e0; (split; [exact X|]); (split; [|exact G]);
      rewrite gcore_undef by exact Logic.I; rewrite C; reflexivity).
    1-3: unfold de_gen in HE |- *; cbn [undef da_deser];
      change (with_targs (undef ar) (map (targ_str P) l)) with (undef (with_targs ar (map (targ_str P) l)));
      set (a' := with_targs ar (map (targ_str P) l)) in *;
      assert (I' : da_iter a' = false) by exact I; assert (FL' : da_flatten a' = false) by exact FL; assert (D' : da_default a' = true) by exact D;
      inv_bind HE; inv_bind HE;
      destruct (default_inv _ _ _ _ I' FL' D' Hb0) as (x & X & ->); destruct (default_inv _ _ _ _ I' FL' D' HE) as (y & Y & ->);
      rewrite (EX _ _ _ Y X); exists x, a; (split; [exact X|]); (split; [|apply G_more, G_once]);
      rewrite DS in Hb |- *; change (da_data W (undef a')) with (da_data W a'); change (de_class W cfg (undef a')) with (de_class W cfg a');
      rewrite Hb; reflexivity.
    1-3: inv_bind HE; destruct (default_inv _ _ _ _ I FL D HE) as (x & X & ->); cbn [de_gcore] in Hb |- *;
      destruct (IHt ar _ I FL D Hb) as (y & e0 & Y & C0 & G0); rewrite C0; cbn [bind]; rewrite default_undef;
      rewrite (EX _ _ _ X Y); exists y, e0; (split; [exact Y|]); (split; [reflexivity|]); apply G_more; exact G0.
  Qed.

  Lemma eval_guarded call cx rho x nm e0 e b : guarded x nm e0 e -> eval P W call cx rho x = Ok (VBool b) ->
    eval P W call cx rho e = if b then eval P W call cx rho e0 else default_of cx nm.
  Proof.
    intros G E. induction G as [|e G IH]; cbn [eval]; rewrite E; cbn [bind truthy].
    - destruct b; reflexivity.
    - destruct b; [exact IH|reflexivity].
  Qed.

  Lemma default_found d cx f : x_cls cx = d -> NoDup (map f_name (c_fields d)) -> In f (c_fields d) ->
    default_of cx (f_name f) = match dflt f with Some r => r | None => Raise XKey end.
  Proof.
    intros <- ND Hf. unfold default_of. destruct (find _ (c_fields (x_cls cx))) as [g|] eqn:E.
    - apply find_some in E as [Hg E]. apply String.eqb_eq in E. assert (g = f) by (eapply same_field; eauto). now subst.
    - exfalso. apply (find_none _ _ E f) in Hf. now rewrite String.eqb_refl in Hf.
  Qed.

  Lemma lit_same k k' : lit k = Ok k' -> k' = k.
  Proof. unfold lit. destruct (lit_ok k); [congruence|discriminate]. Qed.
  Lemma lits_same l l' : mapM lit l = Ok l' -> l' = l.
  Proof. intros H. apply mapM_Ok in H. induction H as [|x y l l' Hx H IH]; [reflexivity|]. apply lit_same in Hx. congruence. Qed.

  Lemma key_wire d f var k : da_key W (fieldarg d f var) = Ok k -> wire_name W d f = Some k.
  Proof. unfold da_key. cbn. intros H. inv_bind H. apply lit_same in H as ->. now apply conv_wire. Qed.

  (** The key of the field, if it has aliases, is its Python name (see C22). *)
  Definition named_plainly (d : classdef) (f : fielddef) : Prop := f_alias f = [] \/ wire_name W d f = Some (f_name f).

  Lemma eval_get call cx m kvs k : eval P W call cx [("data", VMap m kvs)] (EGet data_var k) = Ok match skey P kvs k with Some x => x | None => VNone end.
  Proof. reflexivity. Qed.
  Lemma eval_key call cx m kvs k : eval P W call cx [("data", VMap m kvs)] (EKey data_var k) = getitem P (VMap m kvs) k.
  Proof. reflexivity. Qed.

  Lemma eval_exists d f x call cx m kvs : named_plainly d f -> exists_expr (fieldarg d f data_var) = Ok x ->
    eval P W call cx [("data", VMap m kvs)] x = Ok (VBool (has_some (first_key P kvs (key_names W d f)))).
  Proof.
    intros NP H. unfold exists_expr in H. cbn [fieldarg field_arg da_alias da_var da_name] in H. unfold key_names.
    destruct (f_alias f) as [|al als] eqn:AL.
    - inv_bind H. injection H as <-. rewrite (key_wire _ _ _ _ Hb). change (eval P W call cx [("data", VMap m kvs)] (EIn a data_var)) with (b <- py_in P a (VMap m kvs) ;; Ok (VBool b)).
      rewrite py_in_map. cbn [bind first_key]. destruct (skey P kvs a); reflexivity.
    - destruct NP as [NP|NP]; [congruence|]. rewrite NP. inv_bind H. injection H as <-. unfold alias_lits in Hb. cbn [field_arg da_alias] in Hb.
      change (da_alias (fieldarg d f data_var)) with (f_alias f) in Hb. rewrite AL in Hb. apply lits_same in Hb. subst a.
      change (eval P W call cx [("data", VMap m kvs)] (EInAliases data_var (f_name f :: al :: als))) with (b <- exists_by_aliases P (VMap m kvs) (f_name f :: al :: als) ;; Ok (VBool b)).
      rewrite exists_aliases_map. reflexivity.
  Qed.

  Lemma render_nolegacy d f var t : c_deserializer d = None -> de_render P W (de_cfg d true) (fieldarg d f var) t = de_ty P W (de_cfg d true) (fieldarg d f var) t.
  Proof. intros H. unfold de_render, de_cfg. cbn [d_legacy]. rewrite H. reflexivity. Qed.

  Definition no_default (f : fielddef) : fielddef :=
    {| f_name := f_name f; f_type := f_type f; f_default := None; f_init := f_init f; f_kw_only := f_kw_only f;
       f_rename := f_rename f; f_alias := f_alias f; f_skip := f_skip f; f_skip_se := f_skip_se f; f_skip_de := f_skip_de f;
       f_skip_if := f_skip_if f; f_skip_if_false := f_skip_if_false f; f_skip_if_none := f_skip_if_none f; f_skip_if_default := f_skip_if_default f;
       f_serializer := f_serializer f; f_deserializer := f_deserializer f; f_flatten := f_flatten f |}.

  (** ** C08 *)
  Theorem C08_default n tg t d m kvs ro dn o f :
    targets t d -> dictlike d -> c_deserializer d = None ->
    In f (c_fields d) -> read f = true -> f_flatten f = false -> f_default f <> None -> named_plainly d f ->
    from_dict P W K n (tg, t) (VMap m kvs) ro dn = Ok o ->
    exists n' attrs v, c_post d (VObj (c_id d) attrs) = Ok o /\ slookup (f_name f) attrs = Some v /\
      match first_key P kvs (key_names W d f) with
      | None => dflt f = Some (Ok v)
      | Some _ => de_value n' d (top_ctx d t ro dn) (VMap m kvs) (no_default f) = Ok v
      end.
  Proof.
    intros HT HD NL Hf R FL DF NP H.
    destruct (from_dict_object _ _ _ _ _ _ _ _ HT HD (map_not_inst _ _ _ _ HT) H) as (n' & known & attrs & _ & _ & A & _ & B & _).
    destruct (B f Hf R) as (v & V1 & V2 & _). exists n', attrs, v. split; [exact A|]. split; [exact V1|].
    apply takes_plain in V2; [|exact FL]. unfold de_value in V2. inv_bind V2. rename a into e. rewrite render_nolegacy in Hb by exact NL.
    assert (DD : da_default (fieldarg d f data_var) = true) by (cbn; destruct (f_default f); [reflexivity|congruence]).
    destruct (de_ty_guarded (de_cfg d true) (f_type f) (fieldarg d f data_var) e eq_refl FL DD Hb) as (x & e0 & X & E0 & G).
    assert (EX := eval_exists d f x (run n') (top_ctx d t ro dn) m kvs NP X).
    rewrite (eval_guarded _ _ _ _ _ _ _ _ G EX) in V2. destruct (first_key P kvs (key_names W d f)); cbn [has_some] in V2.
    - unfold de_value. rewrite render_nolegacy by exact NL. change (fieldarg d (no_default f) data_var) with (undef (fieldarg d f data_var)).
      change (f_type (no_default f)) with (f_type f). rewrite E0. exact V2.
    - change (da_name (fieldarg d f data_var)) with (f_name f) in V2. rewrite (default_found d) in V2; [|reflexivity|exact (proj2 HD)|exact Hf]. destruct (dflt f) as [r|]; [now rewrite V2|discriminate].
  Qed.

  (** ** C33 *)
  Definition with_type (t : pytype) (f : fielddef) : fielddef :=
    {| f_name := f_name f; f_type := t; f_default := f_default f; f_init := f_init f; f_kw_only := f_kw_only f;
       f_rename := f_rename f; f_alias := f_alias f; f_skip := f_skip f; f_skip_se := f_skip_se f; f_skip_de := f_skip_de f;
       f_skip_if := f_skip_if f; f_skip_if_false := f_skip_if_false f; f_skip_if_none := f_skip_if_none f; f_skip_if_default := f_skip_if_default f;
       f_serializer := f_serializer f; f_deserializer := f_deserializer f; f_flatten := f_flatten f |}.

  (** No deserializer of its own and no class deserializer for the type of the field *)
  Definition plain_de (d : classdef) (f : fielddef) : Prop :=
    c_deserializer d = None /\ (forall g, f_deserializer f <> Some (FFun g)) /\ (f_deserializer f = None -> find_de P (c_class_de d) (f_type f) = None).

  Lemma plain_de_rest d f var : plain_de d f ->
    de_render P W (de_cfg d true) (fieldarg d f var) (f_type f) = de_rest P W (de_cfg d true) (fieldarg d f var) (f_type f).
  Proof.
    intros (NL & ND & NC). rewrite render_nolegacy, de_ty_eq by exact NL. cbn [de_cfg d_class_de fieldarg field_arg da_deser].
    destruct (f_deserializer f) as [[|g]|].
    - destruct (find_de P (c_class_de d) (f_type f)); reflexivity.
    - destruct (ND g eq_refl).
    - now rewrite NC.
  Qed.

  Theorem C33_optional n tg t d m kvs ro dn o f a :
    targets t d -> dictlike d -> plain_de d f ->
    In f (c_fields d) -> read f = true -> f_flatten f = false -> f_default f = None ->
    f_type f = TUnion [a; TNone] -> a <> TNone ->
    from_dict P W K n (tg, t) (VMap m kvs) ro dn = Ok o ->
    exists n' attrs v, c_post d (VObj (c_id d) attrs) = Ok o /\ slookup (f_name f) attrs = Some v /\
      match first_key P kvs (key_names W d f) with
      | None | Some VNone => v = VNone
      | Some _ => de_value n' d (top_ctx d t ro dn) (VMap m kvs) (with_type a f) = Ok v
      end.
  Proof.
    intros HT HD PD Hf R FL DF TY NN H.
    destruct (from_dict_object _ _ _ _ _ _ _ _ HT HD (map_not_inst _ _ _ _ HT) H) as (n' & known & attrs & _ & _ & A & _ & B & _).
    destruct (B f Hf R) as (v & V1 & V2 & _). exists n', attrs, v. split; [exact A|]. split; [exact V1|].
    apply takes_plain in V2; [|exact FL]. unfold de_value in V2. inv_bind V2. rename a0 into e. rewrite plain_de_rest in Hb by exact PD.
    unfold de_rest in Hb. rewrite TY in Hb. inv_bind Hb.
    assert (IO : is_opt (TUnion [a; TNone]) = true) by (destruct a; try reflexivity; congruence).
    unfold de_default in Hb. cbn [fieldarg field_arg da_default] in Hb. rewrite DF in Hb. cbn [has_some andb] in Hb. injection Hb as <-.
    unfold de_gcore in Hb0. rewrite IO in Hb0. cbn [fieldarg field_arg da_iter da_inner da_flatten da_alias da_var orb] in Hb0.
    rewrite FL in Hb0. inv_bind Hb0. inv_bind Hb0. injection Hb0 as <-. inv_bind Hb. rename a0 into k. pose proof (key_wire _ _ _ _ Hb0) as WN.
    assert (G : eval P W (run n') (top_ctx d t ro dn) [("data", VMap m kvs)] a1 =
      Ok (VBool match first_key P kvs (key_names W d f) with None | Some VNone => false | Some _ => true end)).
    { unfold key_names. rewrite WN. destruct (f_alias f) as [|al als].
      - injection Hb as <-. cbn [eval].
        match goal with |- context [bind ?x (fun v => Ok (VBool _))] => change x with (eval P W (run n') (top_ctx d t ro dn) [("data", VMap m kvs)] (EGet data_var k)) end.
        rewrite eval_get. cbn [first_key]. destruct (skey P kvs k) as [x|]; [destruct x|]; reflexivity.
      - inv_bind Hb. injection Hb as <-. apply lits_same in Hb2. subst. cbn [eval slookup]. change (String.eqb "data" "data") with true. cbn [of_option bind].
        rewrite get_aliases_map. destruct (first_key P kvs (k :: al :: als)) as [x|]; [destruct x|]; reflexivity. }
    assert (IN : forall q, eval P W (run n') (top_ctx d t ro dn) [("data", VMap m kvs)] (EIf a1 q ENone) =
      match first_key P kvs (key_names W d f) with None | Some VNone => Ok VNone | Some _ => eval P W (run n') (top_ctx d t ro dn) [("data", VMap m kvs)] q end).
    { intros q. cbn [eval]. rewrite G. cbn [bind truthy]. destruct (first_key P kvs (key_names W d f)) as [[]|]; reflexivity. }
    rewrite IN in V2.
    assert (DV : de_value n' d (top_ctx d t ro dn) (VMap m kvs) (with_type a f) = eval P W (run n') (top_ctx d t ro dn) [("data", VMap m kvs)] a2).
    { unfold de_value. rewrite render_nolegacy by exact (proj1 PD).
      assert (E : fieldarg d (with_type a f) data_var = opt_inner (fieldarg d f data_var)) by (unfold fieldarg, field_arg, opt_inner; cbn; now rewrite DF).
      rewrite E. change (f_type (with_type a f)) with a. rewrite Hb1. reflexivity. }
    destruct (first_key P kvs (key_names W d f)) as [[]|]; try (now injection V2); rewrite DV; exact V2.
  Qed.

  (** ** C34: a deserializer of the field is all that is applied *)
  Lemma de_fn_found d f g : NoDup (map f_name (c_fields d)) -> In f (c_fields d) -> f_deserializer f = Some (FFun g) ->
    slookup (mangle (f_name f) "deserializer") (rev (de_fns d)) = Some (GFun g).
  Proof.
    intros ND Hf FD. apply slookup_functional.
    - rewrite <- in_rev. unfold de_fns. apply in_concat. exists [(mangle (f_name f) "deserializer", GFun g)]. split; [|now left].
      apply in_map_iff. exists f. rewrite FD. auto.
    - intros h Hh. rewrite <- in_rev in Hh. unfold de_fns in Hh. apply in_concat in Hh as [l [Hl Hh]]. apply in_map_iff in Hl as [f' [<- Hf']].
      assert (N : f_name f' = f_name f /\ (f_deserializer f' = Some FDefault /\ h = GFun (fun _ => Ok VNone) \/ exists g', f_deserializer f' = Some (FFun g') /\ h = GFun g')).
      { assert (MI : forall x y, mangle x "deserializer" = mangle y "deserializer" -> x = y).
        { intros x y E. unfold mangle in E. apply (f_equal list_ascii_of_string) in E. rewrite !list_ascii_app in E. apply app_inv_tail in E. now apply list_ascii_inj. }
        destruct (f_deserializer f') as [[|g']|]; [| |destruct Hh]; destruct Hh as [Hh|[]]; injection Hh as E <-; split; eauto. }
      destruct N as [N C]. assert (f' = f) by (eapply same_field; eauto). subst f'. rewrite FD in C.
      destruct C as [[C _]|[g' [C ->]]]; congruence.
  Qed.

  Theorem C34_deserializer n tg t d m kvs ro dn o f g k x :
    targets t d -> dictlike d ->
    In f (c_fields d) -> read f = true -> f_flatten f = false -> f_alias f = [] ->
    f_deserializer f = Some (FFun g) -> wire_name W d f = Some k -> skey P kvs k = Some x ->
    from_dict P W K n (tg, t) (VMap m kvs) ro dn = Ok o ->
    exists attrs v, c_post d (VObj (c_id d) attrs) = Ok o /\ slookup (f_name f) attrs = Some v /\ g x = Ok v.
  Proof.
    intros HT HD Hf R FL AL FD WN SK H.
    destruct (from_dict_object _ _ _ _ _ _ _ _ HT HD (map_not_inst _ _ _ _ HT) H) as (n' & known & attrs & _ & _ & A & _ & B & _).
    destruct (B f Hf R) as (v & V1 & V2 & _). exists attrs, v. split; [exact A|]. split; [exact V1|].
    apply takes_plain in V2; [|exact FL]. unfold de_value in V2. inv_bind V2. rename a into e.
    assert (RT : de_ty P W (de_cfg d true) (fieldarg d f data_var) (f_type f) = Ok e).
    { unfold de_render in Hb. cbn [fieldarg field_arg da_deser] in Hb. rewrite FD in Hb. destruct (d_legacy (de_cfg d true)); exact Hb. }
    clear Hb.
    assert (GG : forall a, da_deser a = Some (Some (mangle (f_name f) "deserializer")) -> de_ty P W (de_cfg d true) a (f_type f) =
       (dat <- da_data W a (f_type f) ;; de_default P W a (f_type f) (EFn (mangle (f_name f) "deserializer") dat))).
    { intros a E. rewrite de_ty_eq, E. destruct (find_de _ _ _); reflexivity. }
    assert (EF : forall dat, da_data W (fieldarg d f data_var) (f_type f) = Ok dat ->
      eval P W (run n') (top_ctx d t ro dn) [("data", VMap m kvs)] (EFn (mangle (f_name f) "deserializer") dat) = g x).
    { intros dat E. cbn [eval]. unfold fn_lookup. cbn [top_ctx ctx_of de_ctx x_fns]. rewrite (de_fn_found d f g (proj2 HD) Hf FD).
      unfold da_data in E. cbn [fieldarg field_arg da_inner da_iter] in E. inv_bind E. injection E as <-.
      apply key_wire in Hb. rewrite WN in Hb. injection Hb as <-. cbn [field_arg da_var].
      assert (X : eval P W (run n') (top_ctx d t ro dn) [("data", VMap m kvs)] (if has_none_arg (f_type f) then EGet data_var k else EKey data_var k) = Ok x).
      { destruct (has_none_arg (f_type f)); [rewrite eval_get, SK|rewrite eval_key; unfold skey in SK; cbn [getitem]; rewrite SK]; reflexivity. }
      change (ctx_of d ro dn (Some (unalias t)) None None) with (top_ctx d t ro dn). rewrite X. reflexivity. }
    rewrite GG in RT by (cbn; now rewrite FD). inv_bind RT. specialize (EF a Hb).
    destruct (f_default f) as [df|] eqn:DF.
    - assert (DD : da_default (fieldarg d f data_var) = true) by (cbn; now rewrite DF).
      destruct (default_inv (fieldarg d f data_var) _ _ _ eq_refl FL DD RT) as (y & Y & ->).
      assert (EX := eval_exists d f y (run n') (top_ctx d t ro dn) m kvs (or_introl AL) Y).
      unfold key_names in EX. rewrite WN, AL in EX. cbn [first_key] in EX. rewrite SK in EX. cbn [has_some] in EX.
      rewrite (eval_guarded _ _ _ _ _ _ _ _ (G_once _ _ _) EX) in V2. now rewrite EF in V2.
    - unfold de_default in RT. cbn [fieldarg field_arg da_default] in RT. rewrite DF in RT. cbn [has_some andb] in RT. injection RT as <-.
      now rewrite EF in V2.
  Qed.

  (** ** C07: missing fields *)

  (** Types whose code looks at an element of a container that is passed to it *)
  Fixpoint reads (t : pytype) : bool :=
    match t with
    | TNone => false
    | TTuple l => existsb reads l
    | TAlias _ a => reads a
    | _ => true
    end.

  (** Types that need an entry of the mapping: everything but unions with None, None itself and fixed
      tuples of such *)
  Fixpoint required (t : pytype) : bool :=
    match t with
    | TUnion l => negb (existsb is_none l)
    | TNone => false
    | TTuple l => existsb reads l
    | TAlias _ a => required a
    | _ => true
    end.

  Section Dead.
    Variables (call : callreq -> res pyval) (cx : ctx) (rho : env) (xn : exn).
    Notation ev := (eval P W call cx).

    (** The code [e] cannot produce a value in [rho]; if it can produce one anywhere then the exception
        is [xn], the one raised by the part of the input it uses. *)
    Definition dead (e : expr) : Prop :=
      (forall v, ev rho e <> Ok v) /\ ((exists rho' v, ev rho' e = Ok v) -> ev rho e = Raise xn).
    (** The code [e] has the same value everywhere. *)
    Definition safe (e : expr) : Prop := exists v, forall rho, ev rho e = Ok v.

    Definition dead_arg (a : dearg) : Prop :=
      da_iter a = false /\ da_default a = false /\
      (if da_inner a then ev rho (da_var a) = Raise xn
       else da_flatten a = false /\ forall k, da_key W a = Ok k -> ev rho (EKey (da_var a) k) = Raise xn) /\
      (da_alias a <> [] -> da_inner a = false /\ forall ks, alias_lits a (da_name a) = Ok ks -> ev rho (EAliases ks true) = Raise xn).

    Lemma dead_data a t e : dead_arg a -> (da_inner a = true \/ has_none_arg t = false) -> da_data W a t = Ok e -> ev rho e = Raise xn.
    Proof.
      intros (J & _ & H & _) HN E. unfold da_data in E. destruct (da_inner a) eqn:I; [congruence|]. rewrite J in E.
      inv_bind E. injection E as <-. destruct HN as [HN|HN]; [discriminate|]. rewrite HN. now apply H.
    Qed.

    Lemma dead_prim a t e : dead_arg a -> (da_inner a = true \/ has_none_arg t = false) -> prim_data W a t = Ok e -> ev rho e = Raise xn.
    Proof.
      intros H HN E. unfold prim_data in E. destruct (da_alias a) eqn:AL; [eapply dead_data; eauto|].
      inv_bind E. injection E as <-. destruct H as (_ & _ & _ & H). apply H; [congruence|exact Hb].
    Qed.

    (** Ways of building dead code *)
    Lemma dead_key e : ev rho e = Raise xn -> dead e.
    Proof. intros H. split; [rewrite H; discriminate|auto]. Qed.
    Lemma dead_pre {A} (m : res A) (k : env -> A -> pyval -> res pyval) e0 e :
      (forall r, ev r e = (a <- m ;; v <- ev r e0 ;; k r a v)) -> ev rho e0 = Raise xn -> dead e.
    Proof.
      intros E H. split.
      - intros v. rewrite E, H. destruct m; discriminate.
      - intros (r & v & E'). rewrite E in E'. destruct m; try discriminate. rewrite E, H. reflexivity.
    Qed.
    Lemma dead_post (k : env -> pyval -> res pyval) e0 e :
      (forall r, ev r e = (v <- ev r e0 ;; k r v)) -> ev rho e0 = Raise xn -> dead e.
    Proof. intros E H. apply dead_key. rewrite E, H. reflexivity. Qed.
    Lemma dead_if c a b : (exists v, forall r, ev r c = Ok v) -> dead a -> dead b -> dead (EIf c a b).
    Proof.
      intros [v Hv] [A1 A2] [B1 B2]. split.
      - intros w. cbn [eval]. rewrite Hv. cbn [bind]. destruct (truthy _ v); auto.
      - intros (r & w & E). cbn [eval] in *. rewrite Hv in *. cbn [bind] in *. destruct (truthy _ v); eauto.
    Qed.
    Lemma dead_tuple es : Forall (fun e => dead e \/ safe e) es -> Exists dead es -> dead (ETuple es).
    Proof.
      intros F X.
      assert (G : (forall v, mapM (ev rho) es <> Ok v) /\ ((exists r v, mapM (ev r) es = Ok v) -> mapM (ev rho) es = Raise xn)).
      { induction F as [|e es [D|[u S]] F IH]; [inversion X| |].
        - destruct D as [D1 D2]. cbn [mapM]. split.
          + intros v H. inv_bind H. eapply D1; eauto.
          + intros (r & v & H). inv_bind H. rewrite D2 by eauto. reflexivity.
        - assert (X' : Exists dead es).
          { inversion X as [? ? [D _]|]; subst; [|assumption]. destruct (D u). apply S. }
          destruct (IH X') as [I1 I2]. cbn [mapM]. split.
          + intros v H. rewrite S in H. cbn [bind] in H. inv_bind H. eapply I1; eauto.
          + intros (r & v & H). rewrite S in H |- *. cbn [bind] in H |- *. inv_bind H. rewrite I2 by eauto. reflexivity. }
      destruct G as [G1 G2]. split.
      - intros v H. cbn [eval] in H. inv_bind H. eapply G1; eauto.
      - intros (r & v & H). cbn [eval] in H |- *. inv_bind H. rewrite G2 by eauto. reflexivity.
    Qed.
    Lemma safe_tuple es : Forall safe es -> safe (ETuple es).
    Proof.
      intros F. assert (G : exists vs, forall r, mapM (ev r) es = Ok vs).
      { induction F as [|e es [v S] F [vs IH]]; [exists []; reflexivity|]. exists (v :: vs). intros r. cbn [mapM]. now rewrite S, IH. }
      destruct G as [vs G]. exists (VSeq KTuple vs). intros r. cbn [eval]. now rewrite G.
    Qed.
    Lemma safe_not_dead e : safe e -> dead e -> False.
    Proof. intros [v S] [D _]. apply (D v), S. Qed.

    Fixpoint no_tuple (t : pytype) : bool :=
      match t with TTuple _ => false | TAlias _ a => no_tuple a | _ => true end.

    Lemma dead_inner a n v : da_alias a = [] -> ev rho v = Raise xn -> dead_arg (inner_arg a n v).
    Proof. intros AL V. unfold dead_arg; cbn. rewrite AL. repeat split; auto; congruence. Qed.

    Lemma dead_fn f e0 : ev rho e0 = Raise xn -> dead (EFn f e0).
    Proof.
      intros H. apply (dead_pre (match fn_lookup cx f with Some (GFun g) => Ok g | Some (GSkip _) => Raise XType | None => Raise XName end)
        (fun _ g v => g v) e0); [|exact H]. intros r. cbn [eval]. destruct (fn_lookup cx f) as [[]|]; reflexivity.
    Qed.
    Lemma dead_clsde n t e0 : ev rho e0 = Raise xn -> dead (EClsDe n t e0).
    Proof. intros H. refine (dead_pre (resolve P (x_g cx) t) (fun _ t' v => s <- _ ;; cd_fn s t' v) e0 _ _ H). intros r. reflexivity. Qed.
    Lemma dead_coerce c f t e0 : ev rho e0 = Raise xn -> dead (ECoerce c f t e0).
    Proof. intros H. refine (dead_pre (resolve P (x_g cx) t) _ e0 _ _ H). intros r. reflexivity. Qed.
    Lemma dead_comp k e e0 : ev rho e0 = Raise xn -> dead (EComp k e e0).
    Proof. intros H. apply dead_key. cbn [eval]. rewrite H. reflexivity. Qed.
    Lemma mapcomp_key ek e e0 : ev rho e0 = Raise xn -> ev rho (EMapComp ek e e0) = Raise xn.
    Proof. intros H. cbn [eval]. rewrite H. reflexivity. Qed.
    Lemma dead_builtin b e0 : ev rho e0 = Raise xn -> dead (EBuiltin b e0).
    Proof. intros H. apply dead_key. cbn [eval]. rewrite H. reflexivity. Qed.
    Lemma dead_defdict f e0 : ev rho e0 = Raise xn -> dead (EDefDict f e0).
    Proof.
      intros H. split; [intros v|intros (r & v & E)]; cbn [eval] in *; destruct (_ || _); try discriminate; rewrite H; [discriminate|reflexivity].
    Qed.
    Lemma dead_defn tgt e0 nm ta : ev rho e0 = Raise xn -> dead (EDeFn tgt e0 nm ta).
    Proof. intros H. refine (dead_pre _ _ e0 _ _ H). intros r. reflexivity. Qed.
    Lemma dead_deenum t e0 : ev rho e0 = Raise xn -> dead (EDeEnum t e0).
    Proof. intros H. refine (dead_pre (resolve P (x_g cx) t) _ e0 _ _ H). intros r. reflexivity. Qed.
    Lemma dead_ctor t e0 : ev rho e0 = Raise xn -> dead (ECtor t e0).
    Proof. intros H. refine (dead_pre (resolve P (x_g cx) t) _ e0 _ _ H). intros r. reflexivity. Qed.
    Lemma dead_fromiso t e0 : ev rho e0 = Raise xn -> dead (EFromIso t e0).
    Proof. intros H. refine (dead_pre (resolve P (x_g cx) t) _ e0 _ _ H). intros r. reflexivity. Qed.
    Lemma dead_isinst t e0 a b : ev rho e0 = Raise xn -> dead (EIf (EIsInst e0 t) a b).
    Proof. intros H. apply dead_key. cbn [eval]. rewrite H. reflexivity. Qed.
    Lemma dead_notnone e0 a b : ev rho e0 = Raise xn -> dead (EIf (ENotNone e0) a b).
    Proof. intros H. apply dead_key. cbn [eval]. rewrite H. reflexivity. Qed.
    Lemma dead_fromgen i e0 nm : ev rho e0 = Raise xn -> dead (EFromGen i e0 nm).
    Proof. intros H. refine (dead_pre _ _ e0 _ _ H). intros r. reflexivity. Qed.
    Lemma dead_union f e0 : ev rho e0 = Raise xn -> dead (EUnionDe f e0).
    Proof. intros H. apply dead_key. cbn [eval]. rewrite H. reflexivity. Qed.
    Lemma dead_num e0 : ev rho e0 = Raise xn -> dead (ENum e0).
    Proof.
      intros H. split; [intros v|intros (r & v & E)]; cbn [eval] in *; destruct (x_dn cx); try discriminate; rewrite H; [discriminate|reflexivity].
    Qed.
    Lemma dead_lit f e0 : ev rho e0 = Raise xn -> dead (ELitDe f e0).
    Proof.
      intros H. apply (dead_pre (match literal_args P cx f with None => Raise XKey | Some l => _ <- render_literal_de l ;; Ok l end)
        (fun _ l v => if existsb (fun x => eqv P (lit_val x) v) l then Ok v else Raise (XSerde MLiteral)) e0); [|exact H].
      intros r. cbn [eval]. destruct (literal_args P cx f); [|reflexivity]. destruct (render_literal_de l); reflexivity.
    Qed.

    Lemma dead_gcore_prim cfg a t e : dead_arg a -> has_none_arg t = false -> de_prim W cfg a t = Ok e -> dead e.
    Proof.
      intros DA HN E. unfold de_prim in E. inv_bind E. assert (K0 := dead_prim _ _ _ DA (or_intror HN) Hb).
      assert (G : dead (if d_suppress cfg && negb (is_prim_sub t) then a0 else ECoerce (d_cname cfg) (da_name a) t a0))
        by (destruct (_ && _); [now apply dead_key|now apply dead_coerce]).
      destruct (is_float_class t); injection E as <-; [|exact G]. apply dead_if; [eexists; reflexivity|now apply dead_num|exact G].
    Qed.

    Lemma dead_class cfg a c e : dead_arg a -> de_class W cfg a c = Ok e -> dead e.
    Proof.
      intros DA E. unfold de_class in E. inv_bind E. injection E as <-. apply dead_defn.
      destruct (da_flatten a) eqn:FL; [|apply (dead_data a (TClass c) a0 DA (or_intror eq_refl) Hb)].
      destruct DA as (I & _ & H & _). rewrite I in Hb. injection Hb as <-. destruct (da_inner a); [exact H|]. rewrite FL in H. now destruct H.
    Qed.

    Lemma default_off a t e e' : da_default a = false -> de_default P W a t e = Ok e' -> e' = e.
    Proof. intros D E. unfold de_default in E. rewrite D in E. cbn [andb] in E. congruence. Qed.

    Definition deadly (t : pytype) (r : dearg -> res expr) : Prop := forall a e, dead_arg a -> (da_alias a = [] \/ no_tuple t = true) ->
      r a = Ok e -> if da_inner a then dead e \/ (reads t = false /\ safe e) else required t = true -> dead e.

    Lemma dead_ret a t e : dead e -> if da_inner a then dead e \/ (reads t = false /\ safe e) else required t = true -> dead e.
    Proof. destruct (da_inner a); auto. Qed.

    Lemma no_none_arg a l : has_none_arg (TUnion l) = false -> is_opt (TUnion l) = true -> In a l -> False.
    Proof.
      intros H O _. apply opt_shape in O as [b [-> _]]. cbn [has_none_arg existsb is_none] in H.
      rewrite orb_true_r in H. discriminate.
    Qed.

    Lemma de_ty_dead cfg t : deadly t (fun a => de_ty P W cfg a t).
    Proof.
      assert (ST : forall t, deadly t (fun a => de_rest P W cfg a t) -> deadly t (fun a => de_ty P W cfg a t)).
      { intros t' H a e DA AL E. rewrite de_ty_eq in E. pose proof DA as (_ & DD & _).
        destruct (find_de P (d_class_de cfg) _) eqn:F; [destruct (da_deser a) as [[?|]|] eqn:DS|destruct (da_deser a) as [[?|]|] eqn:DS];
          try (eapply H; eassumption);
          (inv_bind E; apply default_off in E; [|exact DD]; subst e; destruct (da_inner a) eqn:II;
           [left; first [apply dead_fn|apply dead_clsde]; eapply dead_data; eauto
           |intros RQ; first [apply dead_fn|apply dead_clsde]; eapply dead_data; eauto; right;
            destruct t'; try reflexivity; cbn [required has_none_arg] in *; now apply negb_true_iff in RQ]). }
      assert (DT : forall a t e, dead_arg a -> da_data W a t = Ok e -> (forall l, t <> TUnion l) -> ev rho e = Raise xn).
      { intros a t' e DA E N. eapply dead_data; eauto. right. destruct t'; try reflexivity. now destruct (N l). }
      assert (PT : forall a t e, dead_arg a -> prim_data W a t = Ok e -> (forall l, t <> TUnion l) -> ev rho e = Raise xn).
      { intros a t' e DA E N. eapply dead_prim; eauto. right. destruct t'; try reflexivity. now destruct (N l). }
      induction t using pytype_ind'; apply ST; intros ar ex DA AL HE; pose proof DA as (_ & DD & _);
        unfold de_rest in HE;
        try (inv_bind HE; apply default_off in HE; [|exact DD]; subst; rename Hb into HE);
        try (unfold de_gcore in HE); try discriminate HE;
        try (apply dead_ret; eapply dead_gcore_prim; [exact DA| |exact HE]; reflexivity);
        try (apply dead_ret; eapply dead_class; eassumption).
      all: try (match goal with H : context [TBare ?b] |- _ => destruct b as [| |[]| | |] end); try discriminate HE.
      all: try (match type of HE with context [match ?k with SkSet => _ | _ => _ end] => destruct k end).
      all: try (match type of HE with context [match ?k with DkDict => _ | _ => _ end] => destruct k end).
      all: try (apply dead_ret;
        repeat match goal with H : bind _ _ = Ok _ |- _ => inv_bind H end;
        repeat match goal with H : Ok _ = Ok _ |- _ => injection H as <- end;
        repeat match goal with H : da_data W _ _ = Ok _ |- _ => apply DT in H; [|exact DA|discriminate] end;
        repeat match goal with H : prim_data W _ _ = Ok _ |- _ => apply PT in H; [|exact DA|discriminate] end;
        first [now apply dead_comp|now apply dead_builtin|now apply dead_key|now apply dead_lit|now apply dead_builtin, mapcomp_key
              |now apply dead_key, mapcomp_key|now apply dead_defdict, mapcomp_key|now apply dead_deenum
              |apply dead_if; [eexists; reflexivity|now apply dead_isinst|first [now apply dead_ctor|now apply dead_fromiso]]]; fail).
      - injection HE as <-. destruct (da_inner ar); [right|discriminate]. split; [reflexivity|]. exists VNone. reflexivity.
      - destruct (is_opt (TUnion l)) eqn:O.
        + destruct (da_inner ar) eqn:II.
          * left. rewrite orb_true_r in HE. destruct l as [|x l]; [discriminate|]. inv_bind HE. inv_bind HE. injection HE as <-.
            inv_bind Hb. injection Hb as <-. apply dead_notnone. eapply dead_data; eauto.
          * intros RQ. cbn [required] in RQ. apply negb_true_iff in RQ. exfalso. apply opt_shape in O as [b [-> _]].
            cbn [existsb is_none] in RQ. rewrite orb_true_r in RQ. discriminate.
        + inv_bind HE. injection HE as <-. destruct (da_inner ar) eqn:II; [left|intros RQ]; apply dead_union; eapply dead_data; eauto.
          right. cbn [required has_none_arg] in *. now apply negb_true_iff in RQ.
      - destruct AL as [AL|AL]; [|discriminate]. destruct l as [|x0 l0]; [discriminate|]. inv_bind HE. inv_bind HE. injection HE as <-.
        apply DT in Hb; [|exact DA|discriminate].
        assert (G : Forall (fun e => dead e \/ safe e) a1 /\ (existsb reads (x0 :: l0) = true -> Exists dead a1) /\
                    (existsb reads (x0 :: l0) = false -> Exists dead a1 \/ Forall safe a1)).
        { revert H a1 Hb0. generalize 0. generalize (x0 :: l0) as r. induction r as [|t r IH]; intros m H es E; cbn [mapMi_from] in E.
          - injection E as <-. split; [|split]; [constructor|discriminate|right; constructor].
          - destruct (de_ty P W cfg _ t) as [e1| |] eqn:E1; [|discriminate|discriminate]. destruct (mapMi_from _ _ r) as [es1| |] eqn:E2; [|discriminate|discriminate].
            injection E as <-. inversion H as [|? ? Ht Hr]; subst. destruct (IH _ Hr _ E2) as (G1 & G2 & G3).
            assert (DI : dead_arg (inner_arg ar (show (EIdx a0 m)) (EIdx a0 m)))
              by (apply dead_inner; [exact AL|cbn [eval]; rewrite Hb; reflexivity]).
            assert (G := Ht _ _ DI (or_introl AL) E1). cbn [inner_arg da_inner] in G. split; [|split]; cbn [existsb].
            + constructor; [destruct G as [G|[_ G]]; auto|auto].
            + intros R. destruct G as [G|[N G]]; [now constructor|]. rewrite N in R. apply Exists_cons_tl. auto.
            + intros R. apply orb_false_iff in R as [R1 R2]. destruct G as [G|[N G]]; [left; now constructor|].
              destruct (G3 R2) as [A|A]; [left; now apply Exists_cons_tl|right; now constructor]. }
        destruct G as (G1 & G2 & G3). change (reads (TTuple (x0 :: l0))) with (existsb reads (x0 :: l0)).
        change (required (TTuple (x0 :: l0))) with (existsb reads (x0 :: l0)).
        destruct (existsb reads (x0 :: l0)) eqn:R.
        + assert (G : dead (ETuple a1)) by (apply dead_tuple; auto). destruct (da_inner ar); auto.
        + destruct (G3 eq_refl) as [A|A]; destruct (da_inner ar); try discriminate; [left; apply dead_tuple; auto|right; split; [reflexivity|now apply safe_tuple]].
      - unfold de_gen in HE. inv_bind HE. inv_bind HE. apply default_off in HE; [|exact DD]. subst. apply default_off in Hb0; [|exact DD]. subst.
        apply dead_ret. set (a' := with_targs ar _) in *. assert (DA' : dead_arg a') by exact DA.
        destruct (find_de _ _ _); [destruct (da_deser ar)|]; try (eapply dead_class; eassumption).
        inv_bind Hb. injection Hb as <-. apply dead_clsde. eapply DT; eauto. discriminate.
      - destruct (c_tvars (d_cls cfg)); [|discriminate]. inv_bind HE. injection HE as <-. apply dead_ret, dead_fromgen. eapply DT; eauto. discriminate.
      - apply (IHt ar a DA AL HE).
    Qed.
  End Dead.

  (** The mapping has none of the keys of the field. *)
  Definition absent (d : classdef) (kvs : list (pyval * pyval)) (f : fielddef) : Prop := first_key P kvs (key_names W d f) = None.

  (** Fields that need an entry: no default, not flattened, and of a type that needs one.  Fixed tuples
      with aliases are left out: aliases are applied to their elements (see C22). *)
  Definition needs_entry (f : fielddef) : Prop :=
    f_default f = None /\ f_flatten f = false /\ required (f_type f) = true /\ (f_alias f = [] \/ no_tuple (f_type f) = true).

  Lemma absent_dead call cx d f kvs : needs_entry f -> named_plainly d f -> absent d kvs f ->
    dead_arg call cx [("data", VMap MDict kvs)] XKey (fieldarg d f data_var).
  Proof.
    intros (DF & FL & _ & _) NP AB. unfold dead_arg. cbn [fieldarg field_arg da_iter da_default da_inner da_flatten da_var].
    rewrite DF. split; [reflexivity|]. split; [reflexivity|]. split.
    - split; [exact FL|]. intros k Hk. apply key_wire in Hk. rewrite eval_key. unfold absent, key_names in AB. rewrite Hk in AB.
      cbn [first_key] in AB. unfold getitem. unfold skey in AB. destruct (dget _ kvs (VStr k)); [discriminate|reflexivity].
    - change (da_alias (fieldarg d f data_var)) with (f_alias f). intros NA. split; [reflexivity|]. intros ks Hk.
      unfold alias_lits in Hk. change (da_alias (fieldarg d f data_var)) with (f_alias f) in Hk. change (da_name (fieldarg d f data_var)) with (f_name f) in Hk.
      apply lits_same in Hk. subst ks. destruct NP as [NP|NP]; [congruence|]. unfold absent, key_names in AB. rewrite NP in AB.
      change (eval P W call cx [("data", VMap MDict kvs)] (EAliases (f_name f :: f_alias f) true)) with (get_by_aliases P (VMap MDict kvs) (f_name f :: f_alias f) true).
      rewrite get_aliases_map. now rewrite AB.
  Qed.

  Lemma absent_value n d cx kvs f : c_deserializer d = None -> needs_entry f -> named_plainly d f -> absent d kvs f ->
    (forall v, de_value n d cx (VMap MDict kvs) f <> Ok v) /\
    ((exists data v, de_value n d cx data f = Ok v) -> de_value n d cx (VMap MDict kvs) f = Raise XKey).
  Proof.
    intros NL NE NP AB. pose proof NE as (_ & _ & RQ & NT).
    assert (G : forall e, de_render P W (de_cfg d true) (fieldarg d f data_var) (f_type f) = Ok e -> dead (run n) cx [("data", VMap MDict kvs)] XKey e).
    { intros e E. rewrite render_nolegacy in E by exact NL.
      exact (de_ty_dead (run n) cx [("data", VMap MDict kvs)] XKey (de_cfg d true) (f_type f) _ e (absent_dead (run n) cx d f kvs NE NP AB) NT E RQ). }
    unfold de_value. split.
    - intros v H. inv_bind H. destruct (G _ Hb) as [D _]. now apply D in H.
    - intros (data & v & H). inv_bind H. rewrite Hb. cbn [bind]. destruct (G _ Hb) as [_ D]. apply D. eauto.
  Qed.

  Theorem C07_missing n tg t d kvs ro dn f :
    targets t d -> dictlike d -> c_deserializer d = None ->
    In f (c_fields d) -> read f = true -> needs_entry f -> named_plainly d f -> absent d kvs f ->
    forall o, from_dict P W K n (tg, t) (VMap MDict kvs) ro dn <> Ok o.
  Proof.
    intros HT HD NL Hf R NE NP AB o H.
    destruct (from_dict_object _ _ _ _ _ _ _ _ HT HD (map_not_inst _ _ _ _ HT) H) as (n' & known & attrs & _ & _ & A & _ & B & _).
    destruct (B f Hf R) as (v & V1 & V2 & _). apply takes_plain in V2; [|exact (proj1 (proj2 NE))].
    destruct (absent_value n' d (top_ctx d t ro dn) kvs f NL NE NP AB) as [G _]. now apply G in V2.
  Qed.

  (** The code of the class was generated *)
  Definition renders (d : classdef) : Prop := exists b, render_from_dict P W d = Ok b.

  Lemma renders_inv d : c_transparent d = false -> renders d -> exists known ss,
    known_fields P W (class_fuel P) d = Ok known /\
    Forall2 (fun f s => field_stmt d known (direct_flat d) f = Ok s) (filter read (c_fields d)) ss /\
    render_from_dict P W d =
      Ok (DbDict (if c_deny d && negb (direct_flat d) then Some known else None) (if direct_flat d then Some known else None)
            ss (force_kw false (c_fields d))).
  Proof.
    intros T (b & H). rewrite (render_dict_eq d T) in *. inv_bind H. inv_bind H. inv_bind H. rename a0 into known, a1 into ss.
    exists known, ss. rewrite Hb, Hb0. cbn [bind]. rewrite Hb1. cbn [bind]. destruct (check_args _ _); [|discriminate].
    split; [reflexivity|]. split; [now apply mapM_Ok|reflexivity].
  Qed.

  (** The keys of a class that forbids unknown keys are known. *)
  Definition keys_ok (d : classdef) (known : list string) (kvs : list (pyval * pyval)) : Prop :=
    c_deny d = true -> direct_flat d = false -> forall kv, In kv kvs -> key_in P (fst kv) known = true.

  Lemma items_map m kvs : items_or_empty P (VMap m kvs) = Ok kvs.
  Proof. destruct kvs, m; reflexivity. Qed.

  (** All keys of the mapping are known, or unknown keys are allowed or collected *)
  Definition keys_ok_b (d : classdef) (known : list string) (kvs : list (pyval * pyval)) : bool :=
    negb (c_deny d) || direct_flat d || forallb (fun kv => key_in P (fst kv) known) kvs.
  Lemma keys_okP d known kvs : keys_ok d known kvs <-> keys_ok_b d known kvs = true.
  Proof.
    unfold keys_ok, keys_ok_b. destruct (c_deny d), (direct_flat d); cbn [negb orb]; try (split; auto; discriminate).
    rewrite forallb_forall. split; auto.
  Qed.

  Definition extra_of (d : classdef) (known : list string) (kvs : list (pyval * pyval)) : list (pyval * pyval) :=
    if direct_flat d then unknown_of known kvs else [].

  (** Running the generated function on a mapping *)
  Lemma run_body n d m kvs ro dn mg mgtv vta known ss :
    render_from_dict P W d =
      Ok (DbDict (if c_deny d && negb (direct_flat d) then Some known else None) (if direct_flat d then Some known else None)
            ss (force_kw false (c_fields d))) ->
    run (S n) (QDe d (VMap m kvs) true ro dn mg mgtv vta) =
    if keys_ok_b d known kvs then
      vals <- foldM (run_dstmt P W (run n) (ctx_of d ro dn mg mgtv vta) (VMap m kvs) (extra_of d known kvs)) ss [] ;;
      run_ctor P W (ctx_of d ro dn mg mgtv vta) vals (force_kw false (c_fields d))
    else Raise (XSerde (MUnknown known)).
  Proof.
    intros RE. cbn [Eval.run step render_de]. rewrite RE. cbn [bind]. fold (ctx_of d ro dn mg mgtv vta).
    cbn [run_de_body]. unfold keys_ok_b, extra_of.
    destruct (c_deny d), (direct_flat d); cbn [andb negb orb]; rewrite ?items_map; cbn [bind]; try reflexivity.
    destruct (forallb _ kvs); reflexivity.
  Qed.

  (** A statement whose field takes a value appends it. *)
  Lemma takes_step n d cx known m kvs g sg vals v : In g (filter read (c_fields d)) -> field_stmt d known (direct_flat d) g = Ok sg ->
    takes n d cx known (VMap m kvs) g v ->
    run_dstmt P W (run n) cx (VMap m kvs) (extra_of d known kvs) vals sg = Ok (vals ++ [(f_name g, v)]).
  Proof.
    intros IG Hg (s' & ex' & S1 & S2 & S3). rewrite Hg in S1. injection S1 as <-.
    destruct sg as [x0|x0 pr e ms]; cbn [run_dstmt app] in *.
    - unfold field_stmt in Hg. destruct (is_flat_dict_field g) eqn:FD; [|exfalso; inv_bind Hg; inv_bind Hg; destruct (has_some _); [discriminate|inv_bind Hg; discriminate]].
      injection S3 as -> <-. unfold extra_of. destruct (direct_flat d) eqn:DF.
      + destruct (S2 eq_refl) as (kvs' & E & ->). rewrite items_map in E. now injection E as <-.
      + exfalso. apply not_true_iff_false in DF. apply DF. unfold direct_flat. apply existsb_exists. eauto.
    - inv_bind S3. rewrite Hb. cbn [bind]. destruct ms as [k|], (eval _ _ _ _ _ e) as [|y|]; try discriminate; try (injection S3 as -> ->; reflexivity); destruct y; discriminate.
  Qed.

  Lemma run_until n d m kvs ro dn mg mgtv vta pre f post known s x :
    c_transparent d = false -> renders d -> known_fields P W (class_fuel P) d = Ok known -> keys_ok d known kvs ->
    filter read (c_fields d) = pre ++ f :: post ->
    Forall (fun g => exists v, takes n d (ctx_of d ro dn mg mgtv vta) known (VMap m kvs) g v) pre ->
    field_stmt d known (direct_flat d) f = Ok s ->
    (forall ex vals, run_dstmt P W (run n) (ctx_of d ro dn mg mgtv vta) (VMap m kvs) ex vals s = Raise x) ->
    run (S n) (QDe d (VMap m kvs) true ro dn mg mgtv vta) = Raise x.
  Proof.
    intros T RD KN KO FS PRE Hs Hx. destruct (renders_inv d T RD) as (known' & ss & KN' & F & RE). rewrite KN in KN'. injection KN' as <-.
    rewrite (run_body n d m kvs ro dn mg mgtv vta known ss RE). apply keys_okP in KO. rewrite KO.
    rewrite FS in F. apply Forall2_app_inv_l in F as (s1 & s2 & F1 & F2 & ->). inversion F2 as [|? ? ? s3 Hf F3]; subst.
    rewrite Hs in Hf. injection Hf as <-.
    assert (FO : forall vals, foldM (run_dstmt P W (run n) (ctx_of d ro dn mg mgtv vta) (VMap m kvs) (extra_of d known kvs)) (s1 ++ s :: s3) vals = Raise x).
    { assert (RR : Forall (fun g => In g (filter read (c_fields d))) pre).
      { apply Forall_forall. intros g Hg. rewrite FS. apply in_or_app. now left. }
      clear - F1 PRE Hx RR. induction F1 as [|g sg gs sgs Hg F1 IH]; intros vals; cbn [app foldM].
      - now rewrite Hx.
      - inversion PRE as [|? ? (v & TK) P2]; inversion RR as [|? ? R1 R2]; subst. rewrite (takes_step _ _ _ _ _ _ _ _ vals v R1 Hg TK). cbn [bind]. now apply IH. }
    rewrite FO. reflexivity.
  Qed.

  Lemma run_all n d m kvs ro dn mg mgtv vta known val :
    dictlike d -> renders d -> known_fields P W (class_fuel P) d = Ok known -> keys_ok d known kvs ->
    (forall f, In f (c_fields d) -> read f = true -> takes n d (ctx_of d ro dn mg mgtv vta) known (VMap m kvs) f (val f)) ->
    run (S n) (QDe d (VMap m kvs) true ro dn mg mgtv vta) =
    construct_user P W d (map val (fst (pk false (c_fields d)))) (map (fun f => (f_name f, val f)) (snd (pk false (c_fields d)))).
  Proof.
    intros (T & ND) RD KN KO TK. destruct (renders_inv d T RD) as (known' & ss & KN' & F & RE). rewrite KN in KN'. injection KN' as <-.
    rewrite (run_body n d m kvs ro dn mg mgtv vta known ss RE). apply keys_okP in KO. rewrite KO.
    set (cx := ctx_of d ro dn mg mgtv vta) in *.
    assert (FO : forall fs ss vals, Forall2 (fun f s => field_stmt d known (direct_flat d) f = Ok s) fs ss ->
       (forall f, In f fs -> In f (filter read (c_fields d)) /\ takes n d cx known (VMap m kvs) f (val f)) ->
       foldM (run_dstmt P W (run n) cx (VMap m kvs) (extra_of d known kvs)) ss vals = Ok (vals ++ map (fun f => (f_name f, val f)) fs)).
    { clear. intros fs ss vals F. revert vals. induction F as [|g sg gs sgs Hg F IH]; intros vals TK; cbn [foldM map].
      - now rewrite app_nil_r.
      - destruct (TK g (or_introl eq_refl)) as [T1 T2]. rewrite (takes_step _ _ _ _ _ _ _ _ vals (val g) T1 Hg T2). cbn [bind]. rewrite IH by (intros; apply TK; now right).
        now rewrite <- app_assoc. }
    rewrite (FO _ _ [] F) by (intros f Hf; split; [exact Hf|]; apply filter_In in Hf as [Hf R]; auto). cbn [bind app]. unfold run_ctor.
    rewrite (split_pk _ val); [reflexivity|]. intros f Hf R. apply slookup_functional.
    - apply in_map_iff. exists f. split; [reflexivity|]. now apply filter_In.
    - intros v Hv. apply in_map_iff in Hv as [g [E Hg]]. injection E as E <-. apply filter_In in Hg as [Hg _].
      assert (g = f) by (eapply same_field; eauto). now subst.
  Qed.

  Theorem C07_message n tg t d kvs ro dn pre f post known k :
    targets t d -> dictlike d -> c_deserializer d = None -> renders d ->
    filter read (c_fields d) = pre ++ f :: post -> needs_entry f -> named_plainly d f -> wire_name W d f = Some k -> absent d kvs f ->
    (exists data v, de_value n d (top_ctx d t ro dn) data f = Ok v) ->
    known_fields P W (class_fuel P) d = Ok known -> keys_ok d known kvs ->
    Forall (fun g => exists v, takes n d (top_ctx d t ro dn) known (VMap MDict kvs) g v) pre ->
    from_dict P W K (S (S n)) (tg, t) (VMap MDict kvs) ro dn = Raise (XSerde (MWrap (XSerde (MMissing k (c_name d))))).
  Proof.
    intros HT (T & ND) NL RD FS NE NP WN AB CAN KN KO PRE. unfold from_dict.
    rewrite (from_obj_eq (S n) tg t d _ true ro dn HT (map_not_inst _ _ _ _ HT)).
    destruct (absent_value n d (top_ctx d t ro dn) kvs f NL NE NP AB) as [_ RK]. specialize (RK CAN).
    destruct CAN as (data & v & CAN). unfold de_value in CAN, RK. destruct (de_render _ _ _ _ (f_type f)) as [e| |] eqn:RE; try discriminate.
    cbn [bind] in RK. pose proof NE as (DF & FL & _).
    destruct (renders_inv d T RD) as (known' & ss & KN' & F & _). rewrite KN in KN'. injection KN' as <-.
    assert (HS : field_stmt d known (direct_flat d) f = Ok (DsField (f_name f) None e (Some k))).
    { rewrite FS in F. apply Forall2_app_inv_l in F as (s1 & s2 & _ & F2 & _). inversion F2 as [|? s ? s3 Hf F3]; subst.
      rewrite Hf. unfold field_stmt, is_flat_dict_field, flat_child in Hf. rewrite FL, DF in Hf. cbn [andb bind fst snd has_some] in Hf.
      rewrite RE in Hf. cbn [bind] in Hf. inv_bind Hf. apply key_wire in Hb. rewrite WN in Hb. congruence. }
    rewrite (run_until n d MDict kvs ro dn (Some (unalias t)) None None pre f post known _ (XSerde (MMissing k (c_name d))) T RD KN KO FS PRE HS); [reflexivity|].
    intros ex vals. cbn [run_dstmt bind]. fold (top_ctx d t ro dn). rewrite RK. reflexivity.
  Qed.

  (** ** C09 *)

  (** A key of the mapping is neither wire name nor alias of a field. *)
  Definition unknown_key (d : classdef) (k : pyval) : Prop := forall x, In x (own_keys d) -> eqv P (VStr x) k = false.

  Lemma unknown_keyP d k : unknown_key d k <-> key_in P k (own_keys d) = false.
  Proof.
    unfold unknown_key, key_in. split; intros H.
    - apply not_true_iff_false. intros E. apply existsb_exists in E as [x [Hx E]]. now rewrite (H x Hx) in E.
    - intros x Hx. apply not_true_iff_false. intros E. rewrite <- not_true_iff_false in H. apply H. apply existsb_exists. eauto.
  Qed.

  Theorem C09_rejects n tg t d m kvs ro dn kv :
    targets t d -> c_transparent d = false -> renders d -> c_deny d = true ->
    (forall f, In f (c_fields d) -> is_flat_dict_field f = false) -> (forall f, In f (c_fields d) -> flat_child f = None) ->
    In kv kvs -> unknown_key d (fst kv) ->
    from_dict P W K (S (S n)) (tg, t) (VMap m kvs) ro dn = Raise (XSerde (MWrap (XSerde (MUnknown (own_keys d))))).
  Proof.
    intros HT T RD DN FD FC Hkv UK. unfold from_dict. rewrite (from_obj_eq (S n) tg t d _ true ro dn HT (map_not_inst _ _ _ _ HT)).
    destruct (renders_inv d T RD) as (known & ss & KN & F & RE). rewrite (run_body n d m kvs _ _ _ _ _ known ss RE).
    apply (known_own _ _ _ T FC) in KN. subst known. apply unknown_keyP in UK.
    assert (NB : direct_flat d = false).
    { unfold direct_flat. apply not_true_iff_false. intros E. apply existsb_exists in E as [f [Hf E]]. apply filter_In in Hf as [Hf _]. now rewrite FD in E. }
    replace (keys_ok_b d (own_keys d) kvs) with false; [reflexivity|]. symmetry. unfold keys_ok_b. rewrite DN, NB. cbn [negb orb].
    apply not_true_iff_false. intros E. rewrite forallb_forall in E. specialize (E kv Hkv). now rewrite UK in E.
  Qed.

  (** With known keys only, from_dict gets as far as the constructor when the fields have values. *)
  Theorem C09_accepts n tg t d m kvs ro dn known val :
    targets t d -> dictlike d -> renders d -> known_fields P W (class_fuel P) d = Ok known ->
    (forall f, In f (c_fields d) -> flat_child f = None) ->
    (forall kv, In kv kvs -> ~ unknown_key d (fst kv)) ->
    (forall f, In f (c_fields d) -> read f = true -> takes n d (top_ctx d t ro dn) known (VMap m kvs) f (val f)) ->
    from_dict P W K (S (S n)) (tg, t) (VMap m kvs) ro dn =
    construct P W d (map val (fst (pk false (c_fields d)))) (map (fun f => (f_name f, val f)) (snd (pk false (c_fields d)))).
  Proof.
    intros HT HD RD KN FC KO TK. unfold from_dict. rewrite (from_obj_eq (S n) tg t d _ true ro dn HT (map_not_inst _ _ _ _ HT)).
    rewrite (run_all n d m kvs ro dn (Some (unalias t)) None None known val HD RD KN); [|intros _ _ kv Hkv|exact TK].
    - unfold construct_user. destruct (construct _ _ _ _ _); reflexivity.
    - pose proof (known_own _ _ _ (proj1 HD) FC KN) as ->. specialize (KO kv Hkv). rewrite unknown_keyP in KO. now apply not_false_iff_true in KO.
  Qed.

  (** ** C10, C11: what from_dict depends on *)

  (** Two mappings of one kind agree on the keys that satisfy [ok]. *)
  Definition agree (ok : string -> Prop) (kvs kvs' : list (pyval * pyval)) : Prop := forall k, ok k -> skey P kvs k = skey P kvs' k.

  Section Agree.
    Variables (ok : string -> Prop) (m : mapkind) (kvs kvs' : list (pyval * pyval)).
    Hypothesis AG : agree ok kvs kvs'.

    Inductive lookup_of : expr -> Prop :=
    | LO_key k : ok k -> lookup_of (EKey data_var k)
    | LO_get k : ok k -> lookup_of (EGet data_var k)
    | LO_in k : ok k -> lookup_of (EIn k data_var)
    | LO_aliases ks r : Forall ok ks -> lookup_of (EAliases ks r)
    | LO_inaliases ks : Forall ok ks -> lookup_of (EInAliases data_var ks).

    Definition local (x : string) : Prop := x = "v" \/ x = "k".

    Definition same_locals (rho rho' : env) : Prop := exists l, Forall (fun p => local (fst p)) l /\
      rho = l ++ [("data", VMap m kvs)] /\ rho' = l ++ [("data", VMap m kvs')].

    Lemma data_found (l : env) (x : pyval) : Forall (fun p => local (fst p)) l -> slookup "data" (l ++ [("data", x)]) = Some x.
    Proof.
      induction 1 as [|[y z] l H F IH]; [reflexivity|]. cbn [app slookup]. cbn [fst] in H. destruct H as [-> | ->]; exact IH.
    Qed.

    Lemma first_agree ks : Forall ok ks -> first_key P kvs ks = first_key P kvs' ks.
    Proof. induction 1 as [|k ks H F IH]; [reflexivity|]. cbn [first_key]. rewrite (AG k H), IH. reflexivity. Qed.

    Lemma getitem_agree k : ok k -> getitem P (VMap m kvs) k = getitem P (VMap m kvs') k.
    Proof. intros H. pose proof (AG k H) as E. unfold skey in E. cbn [getitem]. now rewrite E. Qed.

    Lemma eval_agree call cx e : okx lookup_of local True e -> forall rho rho', same_locals rho rho' ->
      eval P W call cx rho e = eval P W call cx rho' e.
    Proof.
      intros OK rho rho' HR. replace (eval P W call cx rho' e) with (eval P W call (set_skip (x_skip cx) cx) rho' e) by (destruct cx; reflexivity).
      apply (eval_okx P W call cx (x_skip cx) lookup_of local True same_locals); auto.
      - intros r r' x (l & F & -> & ->) HL. rewrite !slookup_app. destruct (slookup x l); [reflexivity|]. destruct HL as [-> | ->]; reflexivity.
      - intros r r' x (l & F & -> & ->). exists (("v", x) :: l). split; [constructor; [left|]; auto|split; reflexivity].
      - intros r r' x (l & F & -> & ->). exists (("k", x) :: l). split; [constructor; [right|]; auto|split; reflexivity].
      - intros e0 r r' HL (l & F & -> & ->).
        replace (eval P W call (set_skip (x_skip cx) cx)) with (eval P W call cx) by (destruct cx; reflexivity).
        destruct HL as [k Hk|k Hk|k Hk|ks b Hk|ks Hk]; cbn [eval data_var];
          rewrite !data_found by exact F; cbn [of_option bind].
        + now apply getitem_agree.
        + pose proof (AG k Hk) as E. unfold skey in E. unfold getopt. now rewrite E.
        + rewrite !py_in_map. now rewrite (AG k Hk).
        + rewrite !get_aliases_map. now rewrite (first_agree ks Hk).
        + rewrite !exists_aliases_map. now rewrite (first_agree ks Hk).
    Qed.
  End Agree.

  (** The keys with which the code of a field may look into the mapping *)
  Definition asks (ok : string -> Prop) (d : classdef) (f : fielddef) : Prop :=
    f_flatten f = false /\ (forall k, wire_name W d f = Some k -> ok k) /\ Forall ok (f_alias f) /\
    (f_alias f <> [] -> ok (f_name f)) /\ (f_alias f = [] \/ no_inner (f_type f) = true \/ forall k, ok k).

  Lemma field_agree ok m kvs kvs' d f e call cx : agree ok kvs kvs' -> asks ok d f ->
    de_render P W (de_cfg d true) (fieldarg d f data_var) (f_type f) = Ok e ->
    eval P W call cx [("data", VMap m kvs)] e = eval P W call cx [("data", VMap m kvs')] e.
  Proof.
    intros AG (FL & WK & AK & NK & AI) E. apply (eval_agree ok m kvs kvs' AG call cx e).
    - assert (LF : forall e, lookup_of ok e -> okx (lookup_of ok) local True e) by (intros; now apply okx_leaf).
      apply (de_render_okx P W (lookup_of ok) local True true (or_introl eq_refl) (or_intror eq_refl) (de_cfg d true) (fieldarg d f data_var) (f_type f) e); [reflexivity| | |reflexivity|exact E].
      + unfold argok. cbn [fieldarg field_arg da_inner da_iter da_var orb]. split; [discriminate|]. split; [|split].
        * intros _ k Hk. apply key_wire in Hk. specialize (WK k Hk). split; [|split]; apply LF; now constructor.
        * change (da_alias (fieldarg d f data_var)) with (f_alias f). change (da_name (fieldarg d f data_var)) with (f_name f). intros NA ks Hk.
          assert (OK : Forall ok ks).
          { destruct Hk as [Hk|(k & Hk & Hs)]; [apply lits_same in Hk; subst; constructor; auto|].
            apply lits_same in Hs. subst. constructor; auto. apply WK. eapply key_wire; eauto. }
          split; [intros r|]; apply LF; now constructor.
        * change (da_flatten (fieldarg d f data_var)) with (f_flatten f). congruence.
      + destruct AI as [AI|[AI|AI]]; [left; now left|now right|left; right]. intros ks r. apply LF. constructor. apply Forall_forall. auto.
    - exists []. repeat split. constructor.
  Qed.

  (** Mappings that agree on all the keys for which the fields ask give the same result. *)
  Lemma from_dict_agree ok n tg t d m kvs kvs' ro dn :
    targets t d -> c_transparent d = false -> agree ok kvs kvs' -> (forall f, In f (c_fields d) -> asks ok d f) ->
    (forall known, known_fields P W (class_fuel P) d = Ok known -> keys_ok_b d known kvs = keys_ok_b d known kvs') ->
    from_dict P W K n (tg, t) (VMap m kvs) ro dn = from_dict P W K n (tg, t) (VMap m kvs') ro dn.
  Proof.
    intros HT T AG AS KO. unfold from_dict. destruct n as [|[|n]]; [reflexivity| |].
    { rewrite !(from_obj_eq _ _ _ _ _ _ _ _ HT (map_not_inst _ _ _ _ HT)). reflexivity. }
    rewrite !(from_obj_eq _ _ _ _ _ _ _ _ HT (map_not_inst _ _ _ _ HT)). f_equal.
    destruct (render_from_dict P W d) as [b|x|] eqn:RD; [|cbn [Eval.run step render_de]; rewrite RD; reflexivity|cbn [Eval.run step render_de]; rewrite RD; reflexivity].
    destruct (renders_inv d T (ex_intro _ b RD)) as (known & ss & KN & F & RE).
    rewrite !(run_body n d _ _ _ _ _ _ _ known ss RE), (KO known KN). destruct (keys_ok_b d known kvs'); [|reflexivity].
    assert (NF : direct_flat d = false).
    { unfold direct_flat. apply not_true_iff_false. intros E. apply existsb_exists in E as [f [Hf E]]. apply filter_In in Hf as [Hf _].
      destruct (AS f Hf) as (FL & _). unfold is_flat_dict_field in E. now rewrite FL in E. }
    unfold extra_of. rewrite NF. f_equal.
    assert (AS' : forall f, In f (filter read (c_fields d)) -> asks ok d f) by (intros f Hf; apply filter_In in Hf as [Hf _]; auto).
    clear - F AG AS'. generalize (@nil (string * pyval)) as vals. revert AS'. induction F as [|f s fs ss Hs F IH]; intros AS vals; [reflexivity|].
    cbn [foldM].
    assert (E : run_dstmt P W (run n) (ctx_of d ro dn (Some (unalias t)) None None) (VMap m kvs) [] vals s =
                run_dstmt P W (run n) (ctx_of d ro dn (Some (unalias t)) None None) (VMap m kvs') [] vals s).
    { pose proof (AS f (or_introl eq_refl)) as HA. pose proof HA as (FL & _). unfold field_stmt, is_flat_dict_field, flat_child in Hs. rewrite FL in Hs. cbn [andb bind fst snd] in Hs.
      inv_bind Hs. assert (G := fun call cx => field_agree ok m kvs kvs' d f a call cx AG HA Hb).
      destruct (has_some (f_default f)); [injection Hs as <-|inv_bind Hs; injection Hs as <-]; cbn [run_dstmt bind]; now rewrite G. }
    rewrite E. clear E. match goal with |- bind ?x _ = _ => destruct x as [vs| |] end; cbn [bind]; try reflexivity.
    rewrite (IH (fun f Hf => AS f (or_intror Hf)) vs). reflexivity.
  Qed.

  (** C10: the keys of the fields are all that matters. *)
  Theorem C10_ignored_partial n tg t d m kvs kvs' ro dn :
    targets t d -> c_transparent d = false -> c_deny d = false ->
    (forall f, In f (c_fields d) -> f_flatten f = false /\ (f_alias f = [] \/ no_inner (f_type f) = true /\ wire_name W d f = Some (f_name f))) ->
    agree (fun k => exists f, In f (c_fields d) /\ In k (key_names W d f)) kvs kvs' ->
    from_dict P W K n (tg, t) (VMap m kvs) ro dn = from_dict P W K n (tg, t) (VMap m kvs') ro dn.
  Proof.
    intros HT T DN HF AG. eapply from_dict_agree; eauto.
    - intros f Hf. destruct (HF f Hf) as (FL & AL). unfold asks. split; [exact FL|]. split; [|split; [|split]].
      + intros k Hk. exists f. split; [exact Hf|]. unfold key_names. rewrite Hk. now left.
      + apply Forall_forall. intros k Hk. exists f. split; [exact Hf|]. unfold key_names. destruct AL as [AL|(_ & AL)]; [now rewrite AL in Hk|].
        rewrite AL. now right.
      + intros NA. destruct AL as [AL|(_ & AL)]; [congruence|]. exists f. split; [exact Hf|]. unfold key_names. rewrite AL. now left.
      + tauto.
    - intros known _. unfold keys_ok_b. now rewrite DN.
  Qed.

  (** C11: the order of the entries does not matter. *)
  Lemma eq_str v s : py_eqb (enum_scalar P) v (VStr s) = true -> scalar (enum_scalar P) v = Some (SS s).
  Proof.
    intros H. rewrite <- py_eqb_str_sym in H. unfold py_eqb in H. cbn [scalar] in H.
    destruct (scalar (enum_scalar P) v) as [[]|]; try discriminate. cbn [scal_eqb] in H. apply String.eqb_eq in H. now subst.
  Qed.
  Lemma eq_strs a b s : py_eqb (enum_scalar P) a (VStr s) = true -> py_eqb (enum_scalar P) b (VStr s) = true -> eqv P a b = true.
  Proof.
    intros A B. apply eq_str in A, B. unfold eqv.
    destruct a; cbn [py_eqb]; rewrite A, B; cbn [scal_eqb]; apply String.eqb_refl.
  Qed.

  Lemma filter_perm {A} (p : A -> bool) l l' : Permutation l l' -> Permutation (filter p l) (filter p l').
  Proof.
    induction 1 as [|x l l' H IH|x y l|l l' l'' H IH H' IH']; cbn [filter]; auto.
    - destruct (p x); auto.
    - destruct (p x), (p y); auto. constructor.
    - etransitivity; eauto.
  Qed.

  Lemma skey_filter k kvs : skey P kvs k =
    match filter (fun kv => py_eqb (enum_scalar P) (fst kv) (VStr k)) kvs with (_, v) :: _ => Some v | [] => None end.
  Proof.
    unfold skey. induction kvs as [|[a v] kvs IH]; [reflexivity|]. cbn [dget filter fst]. destruct (py_eqb _ a (VStr k)); [reflexivity|exact IH].
  Qed.

  Lemma filter_one k (kvs : list (pyval * pyval)) : distinct P (map fst kvs) -> length (filter (fun kv => py_eqb (enum_scalar P) (fst kv) (VStr k)) kvs) <= 1.
  Proof.
    assert (FN : forall (p : pyval * pyval -> bool) l, (forall x, In x l -> p x = false) -> filter p l = []).
    { intros p l. induction l as [|x l IH]; intros H; [reflexivity|]. cbn [filter]. rewrite (H x) by now left. apply IH. intros; apply H; now right. }
    induction kvs as [|[a v] kvs IH]; intros D; cbn [filter length map fst] in *; [lia|]. inversion D as [|? ? D1 D2]; subst.
    destruct (py_eqb _ a (VStr k)) eqn:E; [|auto]. cbn [length].
    replace (filter _ kvs) with (@nil (pyval * pyval)); [cbn; lia|]. symmetry. apply FN. intros [b w] Hb. cbn [fst].
    apply not_true_iff_false. intros E'. rewrite Forall_forall in D1. assert (I : In b (map fst kvs)) by (apply in_map_iff; now exists (b, w)).
    specialize (D1 b I). rewrite (eq_strs a b k E E') in D1. discriminate.
  Qed.

  Lemma skey_perm k kvs kvs' : distinct P (map fst kvs) -> Permutation kvs kvs' -> skey P kvs k = skey P kvs' k.
  Proof.
    intros D PM. rewrite !skey_filter. assert (L := filter_one k kvs D).
    assert (F := filter_perm (fun kv => py_eqb (enum_scalar P) (fst kv) (VStr k)) _ _ PM).
    destruct (filter _ kvs) as [|x [|y l]]; cbn [length] in L; [| |lia].
    - apply Permutation_nil in F. now rewrite F.
    - apply Permutation_length_1_inv in F. now rewrite F.
  Qed.

  Theorem C11_order n tg t d m kvs kvs' ro dn :
    targets t d -> c_transparent d = false -> (forall f, In f (c_fields d) -> f_flatten f = false) ->
    distinct P (map fst kvs) -> Permutation kvs kvs' ->
    from_dict P W K n (tg, t) (VMap m kvs) ro dn = from_dict P W K n (tg, t) (VMap m kvs') ro dn.
  Proof.
    intros HT T HF DI PM. eapply (from_dict_agree (fun _ => True)); eauto.
    - intros k _. now apply skey_perm.
    - intros f Hf. unfold asks. split; [now apply HF|]. repeat split; auto. apply Forall_forall. auto.
    - intros known _. unfold keys_ok_b. f_equal. apply eq_true_iff_eq. rewrite !forallb_forall.
      split; intros H x Hx; apply H; [apply Permutation_sym in PM|]; eapply Permutation_in; eauto.
  Qed.

  (** Flattened dataclasses: the part of the mapping that they receive is permuted as well. *)
  Definition shuffled (v v' : pyval) : Prop := exists m l l', v = VMap m l /\ v' = VMap m l' /\ Permutation l l' /\ distinct P (map fst l).

  (** Classes that are read from mappings and keep no entries as they are *)
  Definition unordered (d : classdef) : Prop := c_transparent d = false /\ forall f, In f (c_fields d) -> is_flat_dict_field f = false.

  Lemma distinct_filter p (l : list (pyval * pyval)) : distinct P (map fst l) -> distinct P (map fst (filter p l)).
  Proof.
    induction l as [|x l IH]; intros D; [exact D|]. cbn [map] in D. inversion D as [|? ? D1 D2]; subst. cbn [filter].
    destruct (p x); [|auto]. cbn [map]. constructor; [|now apply IH]. rewrite Forall_forall in *. intros y Hy. apply D1.
    apply in_map_iff in Hy as [z [<- Hz]]. apply filter_In in Hz as [Hz _]. now apply in_map.
  Qed.

  Section Shuffle.
    Hypothesis UN : forall c d, get_class P c = Some d -> unordered d.
    Variables (call : callreq -> res pyval) (cx : ctx).
    Hypothesis CL : forall d v v' ro dn mg mgtv vta, unordered d -> shuffled v v' ->
      call (QDe d v true ro dn mg mgtv vta) = call (QDe d v' true ro dn mg mgtv vta).
    Hypothesis UC : unordered (x_cls cx).

    (** Uses of one of the variables [xs] *)
    Inductive use_of (xs : list string) : expr -> Prop :=
    | US_key x k : In x xs -> use_of xs (EKey (EVar x) k)
    | US_get x k : In x xs -> use_of xs (EGet (EVar x) k)
    | US_in x k : In x xs -> use_of xs (EIn k (EVar x))
    | US_aliases ks r : In "data" xs -> use_of xs (EAliases ks r)
    | US_inaliases x ks : In x xs -> use_of xs (EInAliases (EVar x) ks)
    | US_call x tgt ta : In x xs -> use_of xs (EDeFn tgt (EVar x) true ta).

    Definition shuffled_env (xs : list string) (rho rho' : env) : Prop := exists l b b', Forall (fun p => local (fst p)) l /\
      rho = l ++ b /\ rho' = l ++ b' /\ forall x, In x xs -> ~ local x /\ exists v v', slookup x b = Some v /\ slookup x b' = Some v' /\ shuffled v v'.

    Lemma local_none (l : env) x : Forall (fun p => local (fst p)) l -> ~ local x -> slookup x l = None.
    Proof.
      intros F N. induction F as [|[y z] l H F IH]; [reflexivity|]. cbn [slookup]. cbn [fst] in H.
      destruct (String.eqb_spec y x) as [->|]; [contradiction|exact IH].
    Qed.

    Lemma eval_shuffled xs e : okx (use_of xs) local True e -> forall rho rho', shuffled_env xs rho rho' ->
      (forall x, local x -> slookup x rho = slookup x rho') ->
      eval P W call cx rho e = eval P W call cx rho' e.
    Proof.
      intros OK rho rho' HR HL. replace (eval P W call cx rho' e) with (eval P W call (set_skip (x_skip cx) cx) rho' e) by (destruct cx; reflexivity).
      apply (eval_okx P W call cx (x_skip cx) (use_of xs) local True (fun r r' => shuffled_env xs r r' /\ forall x, local x -> slookup x r = slookup x r')); auto.
      - intros r r' x (_ & H) LX. auto.
      - intros r r' x ((l & b & b' & F & -> & -> & B) & H). split.
        + exists (("v", x) :: l), b, b'. split; [constructor; [left|]; auto|]. split; [reflexivity|]. split; [reflexivity|exact B].
        + intros y LY. cbn [slookup]. destruct (String.eqb "v" y); auto.
      - intros r r' x ((l & b & b' & F & -> & -> & B) & H). split.
        + exists (("k", x) :: l), b, b'. split; [constructor; [right|]; auto|]. split; [reflexivity|]. split; [reflexivity|exact B].
        + intros y LY. cbn [slookup]. destruct (String.eqb "k" y); auto.
      - intros e0 r r' HU ((l & b & b' & F & -> & -> & B) & _).
        replace (eval P W call (set_skip (x_skip cx) cx)) with (eval P W call cx) by (destruct cx; reflexivity).
        assert (LK : forall x, In x xs -> exists v v', slookup x (l ++ b) = Some v /\ slookup x (l ++ b') = Some v' /\ shuffled v v').
        { intros x Hx. destruct (B x Hx) as (N & v & v' & V1 & V2 & S). exists v, v'. rewrite !slookup_app, (local_none l x F N). auto. }
        assert (AG : forall kvs kvs', Permutation kvs kvs' -> distinct P (map fst kvs) -> agree (fun _ => True) kvs kvs')
          by (intros kvs kvs' PM D k _; now apply skey_perm).
        assert (AL : forall ks : list string, Forall (fun _ => True) ks) by (intros; apply Forall_forall; auto).
        destruct HU as [x k Hx|x k Hx|x k Hx|ks b0 Hx|x ks Hx|x tgt ta Hx];
          destruct (LK _ Hx) as (v & v' & V1 & V2 & SH); pose proof SH as (m & kvs & kvs' & -> & -> & PM & D);
          cbn [eval]; rewrite V1, V2; cbn [of_option bind].
        + now apply (getitem_agree (fun _ => True) m kvs kvs' (AG _ _ PM D)).
        + pose proof (skey_perm k _ _ D PM) as E. unfold skey in E. unfold getopt. now rewrite E.
        + rewrite !py_in_map. now rewrite (skey_perm k _ _ D PM).
        + rewrite !get_aliases_map. now rewrite (first_agree (fun _ => True) kvs kvs' (AG _ _ PM D) ks (AL ks)).
        + rewrite !exists_aliases_map. now rewrite (first_agree (fun _ => True) kvs kvs' (AG _ _ PM D) ks (AL ks)).
        + destruct tgt as [|t0]; cbn [bind].
          * now apply CL.
          * destruct (resolve P (x_g cx) t0) as [t'| |]; cbn [bind]; try reflexivity. destruct t'; try reflexivity.
            destruct (get_class P c) as [d'|] eqn:GC; cbn [of_option bind]; [|reflexivity]. apply CL; [eapply UN; eauto|exact SH].
    Qed.

    Lemma stmt_shuffled d known f s data data' ex vals : In f (c_fields d) -> unordered d -> shuffled data data' ->
      field_stmt d known (direct_flat d) f = Ok s ->
      run_dstmt P W call cx data ex vals s = run_dstmt P W call cx data' ex vals s.
    Proof.
      intros Hf (_ & NF) SH Hs. unfold field_stmt in Hs. rewrite (NF f Hf) in Hs. inv_bind Hs. rename a into pv. inv_bind Hs. rename a into e.
      assert (G : forall x b b', ~ local x -> da_var (fieldarg d f (snd pv)) = EVar x ->
         (forall y, In y [x; "data"] -> exists v v', slookup y b = Some v /\ slookup y b' = Some v' /\ shuffled v v') ->
         (forall y, local y -> slookup y b = slookup y b') ->
         eval P W call cx b e = eval P W call cx b' e).
      { intros x b b' NX DV BB LO. apply (eval_shuffled [x; "data"]); [| |exact LO].
        - assert (LF : forall e, use_of [x; "data"] e -> okx (use_of [x; "data"]) local True e) by (intros; now apply okx_leaf).
          assert (LX : In x [x; "data"]) by now left. assert (LD : In "data" [x; "data"]) by (right; now left).
          apply (de_render_okx P W (use_of [x; "data"]) local True true (or_introl eq_refl) (or_intror eq_refl) (de_cfg d true) (fieldarg d f (snd pv)) (f_type f) e);
            [reflexivity| |left; right; intros; apply LF; now constructor|reflexivity|exact Hb0].
          unfold argok. rewrite DV. split; [discriminate|]. split; [|split].
          + intros _ k Hk. split; [|split]; apply LF; now constructor.
          + intros _ ks _. split; [intros r|]; apply LF; now constructor.
          + intros _. split; [intros; apply LF; now constructor|]. split; [intros k; split; apply LF; now constructor|intros; apply LF; now constructor].
        - exists [], b, b'. split; [constructor|]. split; [reflexivity|]. split; [reflexivity|]. intros y Hy. split; [|now apply BB].
          destruct Hy as [<-|[<-|[]]]; [exact NX|]. intros [H|H]; discriminate. }
      assert (EQ : forall ms, run_dstmt P W call cx data ex vals (DsField (f_name f) (fst pv) e ms) = run_dstmt P W call cx data' ex vals (DsField (f_name f) (fst pv) e ms)).
      { intros ms. cbn [run_dstmt]. destruct (flat_child f) as [c|].
        - destruct (get_class P c) as [d'|]; [|discriminate]. inv_bind Hb. injection Hb as <-. cbn [fst snd] in *.
          pose proof SH as (m & l & l' & -> & -> & PM & D).
          assert (PJ : forall p, exists l1 l2, project_flat P p (VMap m l) = Ok (VMap MDict l1) /\ project_flat P p (VMap m l') = Ok (VMap MDict l2) /\
             Permutation l1 l2 /\ distinct P (map fst l1)).
          { intros p. unfold project_flat. destruct l as [|x l].
            { apply Permutation_nil in PM. subst l'. exists [], []. repeat split; auto. }
            destruct l' as [|x' l']; [apply Permutation_sym, Permutation_nil in PM; discriminate|].
            cbn [truthy items bind]. eexists _, _. split; [reflexivity|]. split; [reflexivity|]. split; [now apply filter_perm|now apply distinct_filter]. }
          match goal with |- context [project_flat P ?p (VMap m l)] => destruct (PJ p) as (l1 & l2 & E1 & E2 & PM' & D'); rewrite E1, E2 end. cbn [bind].
          rewrite (G (flat_var (f_name f)) [(flat_var (f_name f), VMap MDict l1); ("data", VMap m l)] [(flat_var (f_name f), VMap MDict l2); ("data", VMap m l')]); [reflexivity| |reflexivity| |].
          + unfold local, flat_var. intros [H|H]; discriminate.
          + intros y [<-|[<-|[]]].
            * exists (VMap MDict l1), (VMap MDict l2). cbn [slookup]. rewrite String.eqb_refl. split; [reflexivity|]. split; [reflexivity|].
              exists MDict, l1, l2. auto.
            * exists (VMap m l), (VMap m l'). split; [reflexivity|]. split; [reflexivity|]. exact SH.
          + intros y [-> | ->]; reflexivity.
        - injection Hb as <-. cbn [fst snd bind] in *.
          rewrite (G "data" [("data", data)] [("data", data')]); [reflexivity|intros [H|H]; discriminate|reflexivity| |].
          + intros y [<-|[<-|[]]]; exists data, data'; auto.
          + intros y [-> | ->]; reflexivity. }
      destruct (has_some (f_default f)); [injection Hs as <-; apply EQ|]. inv_bind Hs. injection Hs as <-. apply EQ.
    Qed.
  End Shuffle.

  Lemma run_shuffled : (forall c d, get_class P c = Some d -> unordered d) -> forall n d v v' ro dn mg mgtv vta, unordered d -> shuffled v v' ->
    run n (QDe d v true ro dn mg mgtv vta) = run n (QDe d v' true ro dn mg mgtv vta).
  Proof.
    intros UN. induction n as [|n IH]; intros d v v' ro dn mg mgtv vta UD SH; [reflexivity|].
    destruct (render_from_dict P W d) as [b|x|] eqn:RD; [|cbn [Eval.run step render_de]; rewrite RD; reflexivity|cbn [Eval.run step render_de]; rewrite RD; reflexivity].
    destruct (renders_inv d (proj1 UD) (ex_intro _ b RD)) as (known & ss & KN & F & RE).
    pose proof SH as (m & l & l' & -> & -> & PM & D). rewrite !(run_body n d _ _ _ _ _ _ _ known ss RE).
    assert (KO : keys_ok_b d known l = keys_ok_b d known l').
    { unfold keys_ok_b. f_equal. apply eq_true_iff_eq. rewrite !forallb_forall.
      split; intros H x Hx; apply H; [apply Permutation_sym in PM|]; eapply Permutation_in; eauto. }
    rewrite KO. destruct (keys_ok_b d known l'); [|reflexivity].
    assert (NF : direct_flat d = false).
    { unfold direct_flat. apply not_true_iff_false. intros E. apply existsb_exists in E as [f [Hf E]]. apply filter_In in Hf as [Hf _].
      now rewrite (proj2 UD f Hf) in E. }
    unfold extra_of. rewrite NF. f_equal.
    assert (AS : forall f, In f (filter read (c_fields d)) -> In f (c_fields d)) by (intros f Hf; now apply filter_In in Hf as [Hf _]).
    clear - F AS UD SH IH UN. generalize (@nil (string * pyval)) as vals. revert AS. induction F as [|f s fs ss Hs F IHF]; intros AS vals; [reflexivity|].
    cbn [foldM].
    rewrite (stmt_shuffled UN (run n) (ctx_of d ro dn mg mgtv vta) IH UD d known f s (VMap m l) (VMap m l') [] vals (AS f (or_introl eq_refl)) UD SH Hs).
    match goal with |- bind ?x _ = _ => destruct x as [vs| |] end; cbn [bind]; try reflexivity.
    rewrite (IHF (fun f Hf => AS f (or_intror Hf)) vs). reflexivity.
  Qed.

  Theorem C11_flatten n tg t d m kvs kvs' ro dn :
    targets t d -> (forall c d, get_class P c = Some d -> unordered d) ->
    distinct P (map fst kvs) -> Permutation kvs kvs' ->
    from_dict P W K n (tg, t) (VMap m kvs) ro dn = from_dict P W K n (tg, t) (VMap m kvs') ro dn.
  Proof.
    intros HT UN D PM. unfold from_dict. destruct n as [|n]; [reflexivity|].
    rewrite !(from_obj_eq _ _ _ _ _ _ _ _ HT (map_not_inst _ _ _ _ HT)). f_equal. apply run_shuffled; auto.
    - destruct HT as (c & _ & G & _). eapply UN; eauto.
    - exists m, kvs, kvs'. auto.
  Qed.
End De.

(** Missing entries of types without content: a tuple of None needs no entry (core of C07). *)
Theorem C07_tuple_of_none_refuted :
  exists P o, from_dict P W0 [] 20 (TagExternal, TClass "A") (dict []) None None = Ok o /\ o = VObj "A" [("a", VSeq KTuple [VNone])].
Proof. exists (prog [cls "A" [fld "a" (TTuple [TNone])]] []), (VObj "A" [("a", VSeq KTuple [VNone])]). split; vm_compute; reflexivity. Qed.

(** * Examples: the hypotheses hold and the conclusions say something *)
Module DeEx.
  Definition fa := fld "a" TInt.
  Definition fb := with_names None ["bb"] (with_default (VInt 5) (fld "b" TInt)).
  Definition fc := fld "c" (TOpt TString).
  Definition fs := with_default (VInt 7) (with_skip false false true (fld "s" TInt)).
  Definition fg := with_names (Some "gee") [] (with_fns None (Some (FFun (fun v => match v with VStr _ => Ok (VInt 42) | _ => Raise XType end))) (fld "g" TInt)).
  Definition E (deny : bool) : classdef := clsx "E" [fa; fb; fc; fg; fs] None TagExternal TcStrict false deny.
  Definition PE deny := prog [E deny] [].
  Definition tE := TClass "E".

  Lemma target deny : targets (PE deny) tE (E deny).
  Proof. exists "E". repeat split. Qed.
  Lemma dl deny : dictlike (E deny).
  Proof. split; [reflexivity|]. repeat constructor; simpl; intuition discriminate. Qed.

  (** a = z, c missing, the key of the alias of b given, s given although it is not read *)
  Definition data1 (z : Z) := [(VStr "a", VInt z); (VStr "bb", VInt 8); (VStr "gee", VStr "x"); (VStr "s", VInt 3)].
  Definition out1 (z : Z) := VObj "E" [("a", VInt z); ("b", VInt 8); ("c", VNone); ("g", VInt 42); ("s", VInt 7)].
  Lemma run1 z : from_dict (PE false) W0 [] 9 (TagExternal, tE) (VMap MDict (data1 z)) None None = Ok (out1 z).
  Proof. reflexivity. Qed.

  Example C32_ex z : exists attrs, out1 z = VObj "E" attrs /\ slookup "s" attrs = Some (VInt 7).
  Proof.
    destruct (C32_unread (PE false) W0 [] 9 TagExternal tE (E false) (VMap MDict (data1 z)) None None _ fs (target false) (dl false) eq_refl ltac:(simpl; auto 9) eq_refl (run1 z))
      as (attrs & A & v & V & L). injection A as A. injection V as <-. exists attrs. split; [unfold out1; congruence|exact L].
  Qed.
  Example C25_ex z : exists attrs, out1 z = VObj "E" attrs /\ exists v, slookup "c" attrs = Some v /\ looks (PE false) W0 v (TOpt TString).
  Proof.
    destruct (C25_strict (PE false) W0 [] 9 TagExternal tE (E false) (VMap MDict (data1 z)) None None _ (target false) (dl false) eq_refl eq_refl (run1 z)) as (attrs & A & B).
    injection A as A. exists attrs. split; [first [unfold out1; congruence|congruence]|]. apply (B fc); [simpl; auto|reflexivity].
  Qed.
  Example C25_ex2 : from_dict (PE false) W0 [] 9 (TagExternal, tE) (dict [("a", VStr "x"); ("gee", VStr "x")]) None None = Raise (XSerde MViolation).
  Proof. vm_compute. reflexivity. Qed.
  Example C08_ex z : exists n' attrs v, out1 z = VObj "E" attrs /\ slookup "b" attrs = Some v /\
    de_value (PE false) W0 [] n' (E false) (top_ctx (PE false) (E false) tE None None) (VMap MDict (data1 z)) (no_default fb) = Ok v.
  Proof.
    destruct (C08_default (PE false) W0 [] 9 TagExternal tE (E false) MDict _ None None _ fb (target false) (dl false) eq_refl ltac:(simpl; auto) eq_refl eq_refl
      ltac:(discriminate) ltac:(right; reflexivity) (run1 z)) as (n' & attrs & v & A & B & C). injection A as A. exists n', attrs, v.
    split; [first [unfold out1; congruence|congruence]|]. split; [exact B|exact C].
  Qed.
  Definition data2 (z : Z) := [(VStr "a", VInt z); (VStr "gee", VStr "x"); (VStr "c", VStr "y")].
  Definition out2 (z : Z) := VObj "E" [("a", VInt z); ("b", VInt 5); ("c", VStr "y"); ("g", VInt 42); ("s", VInt 7)].
  Lemma run2 z : from_dict (PE true) W0 [] 9 (TagExternal, tE) (VMap MDict (data2 z)) None None = Ok (out2 z).
  Proof. reflexivity. Qed.
  Example C08_ex2 z : exists attrs v, out2 z = VObj "E" attrs /\ slookup "b" attrs = Some v /\ Some (Ok (VInt 5)) = Some (Ok v).
  Proof.
    destruct (C08_default (PE true) W0 [] 9 TagExternal tE (E true) MDict _ None None _ fb (target true) (dl true) eq_refl ltac:(simpl; auto) eq_refl eq_refl
      ltac:(discriminate) ltac:(right; reflexivity) (run2 z)) as (n' & attrs & v & A & B & C). injection A as A. exists attrs, v.
    split; [first [unfold out1; congruence|unfold out2; congruence]|]. split; [exact B|exact C].
  Qed.
  Lemma plain_c deny : plain_de (PE deny) (E deny) fc.
  Proof. split; [reflexivity|]. split; [discriminate|reflexivity]. Qed.
  Example C33_ex z : exists attrs v, out1 z = VObj "E" attrs /\ slookup "c" attrs = Some v /\ v = VNone.
  Proof.
    destruct (C33_optional (PE false) W0 [] 9 TagExternal tE (E false) MDict _ None None _ fc TString (target false) (dl false) (plain_c false) ltac:(simpl; auto)
      eq_refl eq_refl eq_refl eq_refl ltac:(discriminate) (run1 z)) as (n' & attrs & v & A & B & C).
    injection A as A. exists attrs, v. split; [first [unfold out1; congruence|unfold out2; congruence]|]. split; [exact B|exact C].
  Qed.
  Example C33_ex2 z : exists n' attrs v, out2 z = VObj "E" attrs /\ slookup "c" attrs = Some v /\
    de_value (PE true) W0 [] n' (E true) (top_ctx (PE true) (E true) tE None None) (VMap MDict (data2 z)) (with_type TString fc) = Ok v.
  Proof.
    destruct (C33_optional (PE true) W0 [] 9 TagExternal tE (E true) MDict _ None None _ fc TString (target true) (dl true) (plain_c true) ltac:(simpl; auto)
      eq_refl eq_refl eq_refl eq_refl ltac:(discriminate) (run2 z)) as (n' & attrs & v & A & B & C).
    injection A as A. exists n', attrs, v. split; [first [unfold out1; congruence|unfold out2; congruence]|]. split; [exact B|exact C].
  Qed.
  Example C34_ex z : exists attrs v, out1 z = VObj "E" attrs /\ slookup "g" attrs = Some v /\ Ok (VInt 42) = Ok v.
  Proof.
    destruct (C34_deserializer (PE false) W0 [] 9 TagExternal tE (E false) MDict (data1 z) None None _ fg _ "gee" (VStr "x") (target false) (dl false) ltac:(simpl; auto)
      eq_refl eq_refl eq_refl eq_refl eq_refl eq_refl (run1 z)) as (attrs & v & A & B & C). injection A as A. exists attrs, v. split; [first [unfold out1; congruence|unfold out2; congruence]|]. split; [exact B|exact C].
  Qed.

  (** No entry for g: a, b and c are read before. *)
  Definition data3 (z : Z) := [(VStr "a", VInt z); (VStr "b", VInt 1)].
  Lemma needs_a : needs_entry fa. Proof. repeat split. now left. Qed.
  Lemma needs_g : needs_entry fg. Proof. repeat split. now left. Qed.
  Example C07_ex z o n : from_dict (PE true) W0 [] n (TagExternal, tE) (VMap MDict (data3 z)) None None <> Ok o.
  Proof.
    apply (C07_missing (PE true) W0 [] n TagExternal tE (E true) (data3 z) None None fg (target true) (dl true)); try reflexivity; [simpl; auto|apply needs_g|now left].
  Qed.
  Example C07_ex2 z : from_dict (PE true) W0 [] 9 (TagExternal, tE) (VMap MDict (data3 z)) None None =
    Raise (XSerde (MWrap (XSerde (MMissing "gee" "E")))).
  Proof.
    apply (C07_message (PE true) W0 [] 7 TagExternal tE (E true) (data3 z) None None [fa; fb; fc] fg [] ["a"; "b"; "bb"; "c"; "gee"; "s"] "gee" (target true) (dl true));
      try reflexivity; [eexists; vm_compute; reflexivity|apply needs_g|now left|exists (dict [("gee", VStr "")]); eexists; vm_compute; reflexivity| |].
    - intros _ _ kv [<-|[<-|[]]]; reflexivity.
    - repeat constructor; eexists; eexists; exists []; (split; [vm_compute; reflexivity|split; [discriminate|vm_compute; reflexivity]]).
  Qed.

  (** An unknown key *)
  Example C09_ex z n k : k <> "a" -> k <> "b" -> k <> "bb" -> k <> "c" -> k <> "gee" -> k <> "s" ->
    from_dict (PE true) W0 [] (S (S n)) (TagExternal, tE) (VMap MDict (data2 z ++ [(VStr k, VNone)])) None None =
    Raise (XSerde (MWrap (XSerde (MUnknown ["a"; "b"; "bb"; "c"; "gee"; "s"])))).
  Proof.
    intros N1 N2 N3 N4 N5 N6.
    apply (C09_rejects (PE true) W0 [] n TagExternal tE (E true) MDict (data2 z ++ [(VStr k, VNone)]) None None (VStr k, VNone) (target true)); try reflexivity.
    - eexists. vm_compute. reflexivity.
    - in_fields; reflexivity.
    - in_fields; reflexivity.
    - apply in_or_app. right. now left.
    - intros x Hx. simpl in Hx. unfold eqv. cbn [fst]. rewrite py_eqb_str. apply String.eqb_neq. intuition congruence.
  Qed.
  Example C09_ex2 z : exists val : fielddef -> pyval,
    from_dict (PE true) W0 [] 9 (TagExternal, tE) (VMap MDict (data2 z)) None None =
    construct (PE true) W0 (E true) (map val [fa; fb; fc; fg]) [].
  Proof.
    exists (fun f => match f_name f with "a" => VInt z | "b" => VInt 5 | "c" => VStr "y" | _ => VInt 42 end).
    apply (C09_accepts (PE true) W0 [] 7 TagExternal tE (E true) MDict (data2 z) None None ["a"; "b"; "bb"; "c"; "gee"; "s"] _ (target true) (dl true));
      try reflexivity.
    - eexists. vm_compute. reflexivity.
    - in_fields; reflexivity.
    - intros kv Hkv H. simpl in Hkv. destruct Hkv as [<-|[<-|[<-|[]]]]; [specialize (H "a")|specialize (H "gee")|specialize (H "c")]; specialize (H ltac:(simpl; auto 9)); discriminate H.
    - intros f Hf R. simpl in Hf. destruct Hf as [<-|[<-|[<-|[<-|[<-|[]]]]]]; try discriminate R;
        (eexists; exists []; (split; [vm_compute; reflexivity|split; [discriminate|vm_compute; reflexivity]])).
  Qed.
  Example C10_ex z n junk : (forall k, In k ["a"; "b"; "bb"; "c"; "gee"; "s"] -> skey (PE false) junk k = None) ->
    from_dict (PE false) W0 [] n (TagExternal, tE) (VMap MDict (data2 z ++ junk)) None None =
    from_dict (PE false) W0 [] n (TagExternal, tE) (VMap MDict (data2 z)) None None.
  Proof.
    intros J. apply (C10_ignored_partial (PE false) W0 [] n TagExternal tE (E false) MDict _ _ None None (target false)); try reflexivity.
    - intros f Hf. simpl in Hf. destruct Hf as [<-|[<-|[<-|[<-|[<-|[]]]]]]; (split; [reflexivity|]); first [left; reflexivity|right; split; reflexivity].
    - intros k (f & Hf & Hk). unfold skey. rewrite dget_app. assert (I : In k ["a"; "b"; "bb"; "c"; "gee"; "s"]).
      { simpl in Hf. destruct Hf as [<-|[<-|[<-|[<-|[<-|[]]]]]]; simpl in Hk; simpl; intuition. }
      specialize (J k I). unfold skey in J. rewrite J. destruct (dget _ (data2 z) (VStr k)); reflexivity.
  Qed.
  Example C11_ex z n kvs : Permutation (data2 z) kvs ->
    from_dict (PE true) W0 [] n (TagExternal, tE) (VMap MDict kvs) None None =
    from_dict (PE true) W0 [] n (TagExternal, tE) (VMap MDict (data2 z)) None None.
  Proof.
    intros PM. symmetry. apply (C11_order (PE true) W0 [] n TagExternal tE (E true) MDict _ _ None None (target true)); auto; [in_fields; reflexivity|].
    repeat constructor.
  Qed.

  (** A flattened dataclass and a flattened dict *)
  Definition In_ := cls "In" [fld "x" TInt; fld "y" (TList LList TInt)].
  Definition Out := cls "Out" [fld "p" TInt; flat (fld "i" (TClass "In")); fld "q" TString].
  Definition PF := prog [In_; Out] [].
  Definition dataF := [(VStr "x", VInt 1); (VStr "p", VInt 2); (VStr "y", vlist [VInt 3]); (VStr "q", VStr "s")].
  Example C11_ex2 n kvs : Permutation dataF kvs ->
    from_dict PF W0 [] n (TagExternal, TClass "Out") (VMap MDict kvs) None None =
    from_dict PF W0 [] n (TagExternal, TClass "Out") (VMap MDict dataF) None None.
  Proof.
    intros PM. symmetry. apply (C11_flatten PF W0 [] n TagExternal (TClass "Out") Out MDict _ _ None None); auto.
    - exists "Out". repeat split.
    - intros c d G. assert (I : In d [In_; Out]). { unfold get_class in G. now apply find_class_id in G as [_ G]. }
      destruct I as [<-|[<-|[]]]; (split; [reflexivity|in_fields; reflexivity]).
    - repeat constructor.
  Qed.
  Example C11_ex3 : from_dict PF W0 [] 9 (TagExternal, TClass "Out") (VMap MDict dataF) None None =
    Ok (VObj "Out" [("p", VInt 2); ("i", VObj "In" [("x", VInt 1); ("y", vlist [VInt 3])]); ("q", VStr "s")]).
  Proof. vm_compute. reflexivity. Qed.

  Definition Rest := cls "Rest" [fld "p" TInt; flat (fld "more" (TDict DkDict TString TAny)); with_names (Some "cue") [] (fld "q" TString)].
  Definition PR := prog [Rest] [].
  Lemma dlR : dictlike Rest.
  Proof. split; [reflexivity|]. repeat constructor; simpl; intuition discriminate. Qed.
  Lemma targetR : targets PR (TClass "Rest") Rest.
  Proof. exists "Rest". repeat split. Qed.
  Example C12_ex x : exists attrs, Ok (VObj "Rest" attrs) = Ok (VObj "Rest" [("p", VInt 2); ("more", dict [("u", x); ("q", VInt 4)]); ("q", VStr "s")]) /\
    slookup "more" attrs = Some (dict [("u", x); ("q", VInt 4)]).
  Proof.
    destruct (C12_collects_partial PR W0 [] 9 TagExternal (TClass "Rest") Rest MDict [(VStr "u", x); (VStr "p", VInt 2); (VStr "q", VInt 4); (VStr "cue", VStr "s")] None None
      (VObj "Rest" [("p", VInt 2); ("more", dict [("u", x); ("q", VInt 4)]); ("q", VStr "s")])
      (flat (fld "more" (TDict DkDict TString TAny)))) as (attrs & A & B);
      [apply targetR|apply dlR|right; left; reflexivity|reflexivity|reflexivity|reflexivity|in_fields; reflexivity|vm_compute; reflexivity|].
    exists attrs. split; [exact A|exact B].
  Qed.
End DeEx.

Print Assumptions C07_missing.
Print Assumptions C07_message.
Print Assumptions C07_tuple_of_none_refuted.
Print Assumptions C08_default.
Print Assumptions C09_rejects.
Print Assumptions C09_accepts.
Print Assumptions C10_ignored_partial.
Print Assumptions C11_order.
Print Assumptions C11_flatten.
Print Assumptions C12_collects_partial.
Print Assumptions C25_strict.
Print Assumptions C32_unread.
Print Assumptions C33_optional.
Print Assumptions C34_deserializer.
