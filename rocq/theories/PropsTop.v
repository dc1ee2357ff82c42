(** Containers as class argument: list[C], dict[str, C], tuple[C, D], Optional[C] ... passed to to_dict and from_dict (C52). *)
From Coq Require Import String List ZArith Bool Lia Permutation.
From Verif Require Import Base PyVal PyType Program Compat Syntax SeRender DeRender Eval Formats Facts Mono Ex Spec Cover SeRT DeRT SpecFmt Transport RoundTrip Decide PropsTrip.
Import ListNotations.
Open Scope string_scope.
Open Scope list_scope.

Section TopSpec.
  Variables (P : program) (W : world) (sk : bool) (Q : classdef -> Prop) (raw : pyval -> Prop).

  (** [topv t v]: [v] is a value of the class argument [t]: instances of dataclasses of the fragment (see [wt]), primitives, paths, UUIDs
      and the like, dates and times, data under Any, Optionals, and lists, sets, deques, fixed tuples and str-keyed dicts of such. *)
  Fixpoint topv (t : pytype) (v : pyval) : Prop :=
    match t with
    | TClass c => (exists attrs, v = VObj c attrs) /\ wt P W sk Q raw v (TClass c)
    | TPrim p => prim_val p v = true
    | TAny => plain v = true /\ raw v
    | TStr k => exists s, v = VInst k s /\ w_ctor W k (VStr s) = Ok (VInst k s)
    | TDate k => exists s, v = VDate k s /\ w_iso W k (VStr s) = Ok (VDate k s)
    | TUnion [a; TNone] => is_none a = false /\ (v = VNone \/ v <> VNone /\ nonnull P a = true /\ topv a v)
    | TList _ a => exists l, v = VSeq KList l /\ Forall (topv a) l
    | TDeque a => exists l, v = VSeq KDeque l /\ Forall (topv a) l
    | TSet k a => exists l, v = VSeq (set_kind k) l /\ Forall (topv a) l /\ distinct P l /\ (exists p, a = TPrim p)
    | TTuple ts => exists l, v = VSeq KTuple l /\
        (fix all ts l := match ts, l with
         | [], [] => True
         | t :: ts, x :: l => topv t x /\ all ts l
         | _, _ => False
         end) ts l
    | TDict k a b => exists l, v = VMap MDict l /\ k <> DkDefault /\ a = TPrim PStr /\
        Forall (fun kv => topv a (fst kv) /\ topv b (snd kv)) l /\ distinct P (map fst l)
    | TAlias _ a => unalias a = a /\ topv a v
    | _ => False
    end.
End TopSpec.

Lemma norm_none ord txt seq x y : Norm ord txt seq x y -> y = VNone -> x = VNone.
Proof. intros N ->. inversion N; subst; auto; try discriminate. contradiction. Qed.

Lemma Forall2_sym {A B} (R : A -> B -> Prop) l l' : Forall2 R l l' -> Forall2 (fun b a => R a b) l' l.
Proof. induction 1; constructor; auto. Qed.

Section Top.
  Variables (P : program) (W : world) (K : list (tagging * pytype)).
  Hypothesis NoSers : p_sers P = [].
  Hypothesis NoDes : p_des P = [].
  Notation run := (run P W K).
  Variables (ord txt : bool) (seq : option seqkind) (sk : bool) (Q : classdef -> Prop) (nm : bool) (ro rc ro' : option bool) (skip : bool) (dn : option numhook).
  Hypothesis HF : forall h, dn = Some h -> forall f, h (VFloat f) = Ok (VFloat f).
  Hypothesis HI : txt = true -> forall z, w_int_of_str W (z_str z) = Some z.
  Hypothesis HR : forall c d, get_class P c = Some d -> flag ro (c_reuse d) = true -> flag ro' (c_reuse d) = true /\ txt = false.
  Hypothesis HS : skip = true -> sk = true.
  Hypothesis HQ : forall d, Q d -> class_fmt ord txt P (has_some dn) d.
  Hypothesis HT : nm = false -> forall d, Q d -> tuple_class d.
  Notation topv := (topv P W sk Q (survives ord txt seq)).
  Notation norm := (Norm ord txt seq).

  Definition trips (v : pyval) (t : pytype) : Prop :=
    exists x, ev (fun n => run n (QToObj v nm ro rc skip None) = Ok x) /\ (v <> VNone -> nonnull P t = true -> x <> VNone) /\
      forall tg y, norm x y -> exists v', same ord v v' /\ ev (fun n => run n (QFromObj (tg, t) y nm ro' dn) = Ok v').

  Lemma trips_list (ts : list (pytype * pyval)) : Forall (fun tv => trips (snd tv) (fst tv)) ts ->
    exists xs, ev (fun n => mapM (fun e => run n (QToObj e nm ro rc skip None)) (map snd ts) = Ok xs) /\
      forall ys, Forall2 norm xs ys -> exists vs, Forall2 (same ord) (map snd ts) vs /\
        ev (fun n => Forall2 (fun ty v => run n (QFromObj (TagExternal, fst ty) (snd ty) nm ro' dn) = Ok v) (combine (map fst ts) ys) vs).
  Proof.
    induction 1 as [|[t v] ts (x & X1 & _ & X3) F IH].
    - exists []. split; [apply ev_always; reflexivity|]. intros ys N. inversion N; subst. exists []. split; [constructor|]. apply ev_always. constructor.
    - destruct IH as (xs & I1 & I2). exists (x :: xs). split.
      + eapply ev_mono; [exact (ev_and _ _ X1 I1)|]. cbv beta. cbn [fst snd] in *. intros n [A B]. cbn [map mapM snd]. rewrite A. cbn [bind]. now rewrite B.
      + intros ys N. inversion N as [|? y ? ys' N1 N2]; subst. destruct (X3 TagExternal y N1) as (v' & S & E). destruct (I2 ys' N2) as (vs & S2 & E2).
        exists (v' :: vs). split; [constructor; auto|]. eapply ev_mono; [exact (ev_and _ _ E E2)|]. cbv beta. intros n [A B]. cbn [map combine fst snd] in *. constructor; auto.
  Qed.

  Lemma norm_list x k y : norm (VSeq k x) y -> exists k' l', y = VSeq k' l' /\ (txt = false /\ y = VSeq k x \/ list_or_tuple k /\ list_or_tuple k') /\
     (Forall2 norm x l').
  Proof.
    intros N. inversion N; subst.
    - exists k, x. split; [reflexivity|]. split; [auto|]. clear N. induction x; constructor; auto. now constructor.
    - discriminate.
    - exists k', l'. split; [reflexivity|]. split; [auto|]. assumption.
  Qed.

  Lemma first_ser_none v : first_ser P v = None.
  Proof. unfold first_ser. now rewrite NoSers. Qed.
  Lemma first_de_none t : first_de P t = None.
  Proof. unfold first_de. now rewrite NoDes. Qed.

  Lemma to_seq k l xs : ev (fun n => mapM (fun e => run n (QToObj e nm ro rc skip None)) l = Ok xs) ->
    ev (fun n => run n (QToObj (VSeq k l) nm ro rc skip None) = Ok (VSeq (match k with KTuple => KTuple | _ => KList end) xs)).
  Proof.
    intros E. apply ev_S in E. eapply ev_mono; [exact E|]. cbv beta. intros [|n] H; [contradiction|]. cbn [Eval.run step].
    unfold to_obj_body. cbn [option_map]. rewrite first_ser_none. destruct k; rewrite H; reflexivity.
  Qed.

  Lemma from_step tg t y body v : unalias t = t -> type_is y t = false -> is_union t && negb (is_opt t) = false ->
    (match t with TGen k _ => TClass k | _ => t end) = t ->
    (forall n, from_obj_body P W (run n) t t y nm ro' dn = body n) -> ev (fun n => body n = Ok v) ->
    ev (fun n => run n (QFromObj (tg, t) y nm ro' dn) = Ok v).
  Proof.
    intros A T U G E E'. apply ev_S in E'. eapply ev_mono; [exact E'|]. cbv beta. intros [|n] X; [contradiction|].
    cbn [Eval.run step]. rewrite A, T, U, G, E, X. reflexivity.
  Qed.

  (** Elements of one type *)
  Lemma trips_same a l : Forall (fun v => trips v a) l ->
    exists xs, ev (fun n => mapM (fun e => run n (QToObj e nm ro rc skip None)) l = Ok xs) /\
      forall ys, Forall2 norm xs ys -> exists vs, Forall2 (same ord) l vs /\
        ev (fun n => mapM (fun e => run n (QFromObj (TagExternal, a) e nm ro' dn)) ys = Ok vs).
  Proof.
    intros F. destruct (trips_list (map (fun v => (a, v)) l)) as (xs & X1 & X2).
    { rewrite Forall_map. exact F. }
    rewrite map_map in X1, X2. cbn [snd] in X1, X2. rewrite map_id in X1, X2. exists xs. split; [exact X1|]. intros ys N. destruct (X2 ys N) as (vs & S & E).
    exists vs. split; [exact S|]. eapply ev_mono; [exact E|]. cbv beta. intros n H. apply mapM_Ok.
    assert (L : length ys = length l).
    { destruct X1 as [n0 X1]. specialize (X1 n0 (le_n _)). apply mapM_Ok in X1. apply Forall2_len in X1. apply Forall2_len in N. lia. }
    clear -H L. rewrite map_map in H. cbn [fst] in H. revert vs l L H. induction ys as [|y ys IH]; intros vs [|v l] L H; cbn in L; try lia; cbn [map combine] in H; inversion H; subst; constructor; auto.
    eapply IH; [|eassumption]. lia.
  Qed.

  Lemma type_is_gen y t : match t with TUnion _ | TList _ _ | TSet _ _ | TDeque _ | TDict _ _ _ | TTuple _ | TAny => True | _ => False end -> type_is y t = false.
  Proof. destruct t; try contradiction; intros _; destruct y as [| | | | | |kk ?|kk ?| | | | |]; try destruct kk; reflexivity. Qed.

  Lemma same_prim p v v' : prim_val p v = true -> same ord v v' -> v' = v.
  Proof. destruct p, v; try discriminate; intros _ S; inversion S; reflexivity. Qed.
  Lemma prim_hash p v : prim_val p v = true -> hashable P v = true.
  Proof. destruct p, v; try discriminate; reflexivity. Qed.

  (** The wrapper class around an object that is written as text *)
  Lemma wrapped t o x n : match t, o with TStr k, VInst k' s | TDate k, VDate k' s => k' = k /\ x = VStr s | _, _ => False end ->
    run (S (S n)) (QToObj o nm ro rc skip None) = Ok (if flag ro true then o else x).
  Proof.
    intros H. cbn [Eval.run step]. unfold to_obj_body. rewrite first_ser_none. cbn [option_map].
    destruct t, o; try contradiction; destruct H as [-> ->]; match goal with |- context [wrapper P ?a ?t] => generalize a; intros nme; set (ty := t) end.
    - assert (C : construct P W (wrapper P nme ty TagExternal) [VInst k s] [] = Ok (VObj (c_id (wrapper P nme ty TagExternal)) [("v", VInst k s)])).
      { unfold construct, construct_user. cbn. rewrite issub_refl. reflexivity. }
      rewrite C. cbn [bind]. set (d := wrapper P nme ty TagExternal) in *.
      assert (R : exists b, render_se P W d true = Ok b) by (eexists; unfold render_se; subst d; cbn; unfold find_ser, class_sers; rewrite NoSers; cbn; reflexivity).
      destruct R as [b R]. cbn [Eval.run step]. rewrite R. cbn [bind].
      replace (se_fns P (class_fuel P) d) with (@Ok (list (string * gfun)) []) by (unfold class_fuel; reflexivity). cbn [bind].
      unfold render_se in R. subst d. cbn in R. unfold find_ser, class_sers in R. rewrite NoSers in R. cbn in R. injection R as <-.
      cbn. destruct (flag ro true), skip; reflexivity.
    - assert (C : construct P W (wrapper P nme ty TagExternal) [VDate k s] [] = Ok (VObj (c_id (wrapper P nme ty TagExternal)) [("v", VDate k s)])).
      { unfold construct, construct_user. cbn. rewrite issub_refl. reflexivity. }
      rewrite C. cbn [bind]. set (d := wrapper P nme ty TagExternal) in *.
      assert (R : exists b, render_se P W d true = Ok b) by (eexists; unfold render_se; subst d; cbn; unfold find_ser, class_sers; rewrite NoSers; cbn; reflexivity).
      destruct R as [b R]. cbn [Eval.run step]. rewrite R. cbn [bind].
      replace (se_fns P (class_fuel P) d) with (@Ok (list (string * gfun)) []) by (unfold class_fuel; reflexivity). cbn [bind].
      unfold render_se in R. subst d. cbn in R. unfold find_ser, class_sers in R. rewrite NoSers in R. cbn in R. injection R as <-.
      cbn. destruct (flag ro true), skip; reflexivity.
  Qed.

  Lemma top_trips t : forall v, topv t v -> trips v t.
  Proof.
    induction t using pytype_ind'; intros v HV; cbn [PropsTop.topv] in HV; try contradiction.
    - (* TPrim *)
      exists v. split; [|split].
      + exists 1. intros [|n] Hn; [lia|]. cbn [Eval.run step]. unfold to_obj_body. cbn [option_map]. rewrite first_ser_none. destruct p, v; try discriminate; reflexivity.
      + intros N _. exact N.
      + intros tg y N. exists y. assert (y = v) by (destruct p, v; try discriminate; inversion N; subst; reflexivity). subst y. split; [constructor|].
        exists 1. intros [|n] Hn; [lia|]. cbn [Eval.run step unalias]. destruct p, v; try discriminate; reflexivity.
    - (* TAny *)
      destruct HV as [PV SV]. exists v. split; [|split].
      + eapply (plain_to_obj P W K NoSers TagExternal _ v (le_n _) PV). now left.
      + intros N _. exact N.
      + intros tg y N. exists y. split; [now apply SV|]. apply (from_step tg TAny y (fun _ => Ok y)); try reflexivity; [now apply type_is_gen| |].
        * intros n. unfold from_obj_body. rewrite first_de_none. reflexivity.
        * now apply ev_always.
    - (* TUnion *)
      destruct l as [|a [|b [|]]]; try contradiction; destruct b; try contradiction. destruct HV as [Ha HV].
      assert (O : is_opt (TUnion [a; TNone]) = true) by (cbn; rewrite Ha; reflexivity).
      assert (U : is_union (TUnion [a; TNone]) && negb (is_opt (TUnion [a; TNone])) = false) by (rewrite O; reflexivity).
      destruct HV as [->|(NN & NA & HV)].
      + exists VNone. split; [|split].
        * exists 1. intros [|n] Hn; [lia|]. reflexivity.
        * congruence.
        * intros tg y N. exists VNone. assert (y = VNone) by (inversion N; reflexivity). subst y. split; [constructor|].
          apply (from_step tg (TUnion [a; TNone]) VNone (fun _ => Ok VNone)); try reflexivity; auto.
          -- intros n. unfold from_obj_body. rewrite first_de_none. reflexivity.
          -- now apply ev_always.
      + inversion H as [|? ? IHa _]; subst. destruct (IHa v HV) as (x & X1 & X2 & X3). exists x. split; [exact X1|]. split; [now intros _ _; apply X2|].
        intros tg y N. destruct (X3 TagExternal y N) as (v' & S & E). exists v'. split; [exact S|].
        apply (from_step tg (TUnion [a; TNone]) y (fun n => run n (QFromObj (TagExternal, a) y nm ro' dn))); try reflexivity; auto; [now apply type_is_gen|].
        intros n. unfold from_obj_body. rewrite first_de_none. destruct y; try reflexivity. exfalso. exact (X2 NN NA (norm_none _ _ _ _ _ N eq_refl)).
    - (* TList *)
      destruct HV as (l & -> & F). destruct (trips_same t l) as (xs & X1 & X2); [eapply Forall_impl; [|exact F]; exact IHt|].
      exists (VSeq KList xs). split; [exact (to_seq _ _ _ X1)|]. split; [discriminate|]. intros tg y N.
      apply norm_list in N as (k' & l' & -> & _ & N). destruct (X2 l' N) as (vs & S & E). exists (VSeq KList vs). split; [now constructor|].
      eapply (from_step tg (TList k t)); [reflexivity|now apply type_is_gen|reflexivity|reflexivity|intros n; unfold from_obj_body; rewrite first_de_none; reflexivity|].
      eapply ev_mono; [exact E|]. cbv beta. intros n H. cbn [iter bind]. rewrite H. reflexivity.
    - (* TSet *)
      destruct HV as (l & -> & F & D & p & ->). destruct (trips_same (TPrim p) l) as (xs & X1 & X2); [eapply Forall_impl; [|exact F]; exact IHt|].
      exists (VSeq KList xs). split; [destruct k; exact (to_seq _ _ _ X1)|]. split; [discriminate|]. intros tg y N.
      apply norm_list in N as (k' & l' & -> & _ & N). destruct (X2 l' N) as (vs & S & E).
      assert (vs = l).
      { clear -S F. cbn [PropsTop.topv] in F. revert vs S. induction F; intros vs S; inversion S; subst; [reflexivity|]. f_equal; eauto using same_prim. }
      subst vs. exists (VSeq (set_kind k) l). split; [constructor|].
      eapply (from_step tg (TSet k (TPrim p))); [reflexivity|now apply type_is_gen|reflexivity|reflexivity|intros n; unfold from_obj_body; rewrite first_de_none; reflexivity|].
      eapply ev_mono; [exact E|]. cbv beta. intros n H. cbn [iter bind]. rewrite H. cbn [bind].
      replace (match k with SkFrozen => KFrozen | _ => KSet end) with (set_kind k) by (now destruct k). apply mk_seq_distinct; [exact D|].
      apply forallb_forall. intros z Hz. rewrite Forall_forall in F. exact (prim_hash p z (F z Hz)).
    - (* TDeque *)
      destruct HV as (l & -> & F). destruct (trips_same t l) as (xs & X1 & X2); [eapply Forall_impl; [|exact F]; exact IHt|].
      exists (VSeq KList xs). split; [exact (to_seq _ _ _ X1)|]. split; [discriminate|]. intros tg y N.
      apply norm_list in N as (k' & l' & -> & _ & N). destruct (X2 l' N) as (vs & S & E). exists (VSeq KDeque vs). split; [now constructor|].
      eapply (from_step tg (TDeque t)); [reflexivity|now apply type_is_gen|reflexivity|reflexivity|intros n; unfold from_obj_body; rewrite first_de_none; reflexivity|].
      eapply ev_mono; [exact E|]. cbv beta. intros n H. cbn [iter bind]. rewrite H. reflexivity.
    - (* TDict *)
      destruct HV as (l & -> & NK & -> & F & D).
      assert (X : exists lx, ev (fun n => mapM (fun kv => x <- run n (QToObj (snd kv) nm ro rc skip None) ;; Ok (fst kv, x)) l = Ok lx) /\
        forall l1, Forall2 (fun kv kv' => nkey txt (fst kv) (fst kv') /\ norm (snd kv) (snd kv')) lx l1 ->
        exists l2, Forall2 (fun kv kv' => fst kv' = fst kv /\ same ord (snd kv) (snd kv')) l l2 /\
          Forall2 (fun kv kv' => fst kv' = fst kv /\ (exists s, fst kv = VStr s) /\ ev (fun n => run n (QFromObj (TagExternal, t2) (snd kv) nm ro' dn) = Ok (snd kv'))) l1 l2).
      { clear D. induction F as [|[k0 v0] l [Fk Fv] F IH].
        - exists []. split; [now apply ev_always|]. intros l1 G. inversion G; subst. exists []. split; constructor.
        - destruct IH as (lx & I1 & I2). cbn [fst snd PropsTop.topv] in *. destruct (IHt2 v0 Fv) as (x & X1 & _ & X3). exists ((k0, x) :: lx). split.
          + eapply ev_mono; [exact (ev_and _ _ X1 I1)|]. cbv beta. intros n [A B]. cbn [mapM fst snd]. rewrite A. cbn [bind]. now rewrite B.
          + intros l1 G. inversion G as [|? [k1 y] ? l1' [G1 G2] G3]; subst. cbn [fst snd] in *. destruct k0; try discriminate.
            assert (k1 = VStr s) by (inversion G1; first [contradiction|congruence|reflexivity]). subst k1.
            destruct (X3 TagExternal y G2) as (v' & S & E). destruct (I2 l1' G3) as (l2 & J1 & J2). exists ((VStr s, v') :: l2). split; constructor; cbn [fst snd]; eauto. }
      destruct X as (lx & X1 & X2). exists (VMap MDict lx). split; [|split; [discriminate|]].
      + apply ev_S in X1. eapply ev_mono; [exact X1|]. cbv beta. intros [|n] H; [contradiction|]. cbn [Eval.run step]. unfold to_obj_body. cbn [option_map]. rewrite first_ser_none, H. reflexivity.
      + intros tg y N.
        assert (Y : exists l1 l', y = VMap MDict l' /\ Forall2 (fun kv kv' => nkey txt (fst kv) (fst kv') /\ norm (snd kv) (snd kv')) lx l1 /\ reordered ord l1 l').
        { inversion N as [? Tx|? Sc| | |? l1 l' G RO]; subst.
          - exists lx, lx. split; [reflexivity|]. split; [|now left]. clear -Tx. induction lx; constructor; auto. split; constructor; assumption.
          - discriminate.
          - eauto. }
        clear N. destruct Y as (l1 & l' & -> & G & RO). destruct (X2 l1 G) as (l2 & J1 & J2).
        assert (Z : exists l3, reordered ord l2 l3 /\
          Forall2 (fun kv kv' => fst kv' = fst kv /\ (exists s, fst kv = VStr s) /\ ev (fun n => run n (QFromObj (TagExternal, t2) (snd kv) nm ro' dn) = Ok (snd kv'))) l' l3).
        { destruct RO as [->|[O PM]]; [exists l2; split; [now left|assumption]|]. apply Forall2_sym in J2. destruct (Forall2_perm_l _ _ _ PM _ J2) as (l3 & PM3 & J3).
          exists l3. split; [now right|]. now apply Forall2_sym in J3. }
        destruct Z as (l3 & RO3 & J3). exists (VMap MDict l3). split; [econstructor; eassumption|].
        eapply (from_step tg (TDict k (TPrim PStr) t2)); [reflexivity|now apply type_is_gen|reflexivity|reflexivity|intros n; unfold from_obj_body; rewrite first_de_none; reflexivity|].
        assert (EV : ev (fun n => mapM (fun kv => k0 <- run n (QFromObj (TagExternal, TPrim PStr) (fst kv) nm ro' dn) ;; v0 <- run n (QFromObj (TagExternal, t2) (snd kv) nm ro' dn) ;; Ok (k0, v0)) l' = Ok l3)).
        { eapply ev_mono; [|intros n Q0; apply mapM_Ok; exact Q0]. apply (ev_Forall2 (fun kv kv' n => (k0 <- run n (QFromObj (TagExternal, TPrim PStr) (fst kv) nm ro' dn) ;; v0 <- run n (QFromObj (TagExternal, t2) (snd kv) nm ro' dn) ;; Ok (k0, v0)) = Ok kv')).
          clear -J3. induction J3 as [|[a b] [a' b'] ? ? (E1 & (s & E2) & E3) _ IH]; constructor; auto. cbn [fst snd] in *. subst. apply ev_S in E3 as E4.
          eapply ev_mono; [exact (ev_and _ _ E3 E4)|]. cbv beta. intros [|n] [Q1 Q2]; [contradiction|]. rewrite Q1. reflexivity. }
        eapply ev_mono; [exact EV|]. cbv beta. intros n H. cbn [items bind]. rewrite H. cbn [bind].
        assert (K2 : map fst l2 = map fst l) by (clear -J1; induction J1 as [|? ? ? ? [E _] _ IH]; cbn; congruence).
        assert (KV : Forall (fun v => keyval v = true) (map fst l)).
        { rewrite Forall_map. eapply Forall_impl; [|exact F]. intros [a b] [A _]. cbn [fst PropsTop.topv] in A |- *. destruct a; try discriminate. reflexivity. }
        assert (PM : Permutation (map fst l) (map fst l3)) by (rewrite <- K2; destruct RO3 as [->|[_ PM]]; [reflexivity|now apply Permutation_map]).
        rewrite mk_map_distinct; [destruct k; try reflexivity; congruence|eapply distinct_perm; eauto|].
        rewrite forallb_forall. intros k0 Hk. apply keyval_hashable. rewrite Forall_forall in KV. apply KV. eapply Permutation_in; [symmetry; exact PM|auto].
    - (* TTuple *)
      destruct HV as (l0 & -> & HV). assert (F : exists ts, map fst ts = l /\ map snd ts = l0 /\ Forall (fun tv => trips (snd tv) (fst tv)) ts).
      { revert l0 HV. induction H as [|a l Ha _ IH]; intros [|x l0] HV; try contradiction.
        - exists []. repeat split; constructor.
        - destruct HV as [H1 H2]. destruct (IH l0 H2) as (ts & <- & <- & F). exists ((a, x) :: ts). repeat split. constructor; auto. }
      clear HV H. destruct F as (ts & <- & <- & F). destruct (trips_list ts F) as (xs & X1 & X2).
      exists (VSeq KTuple xs). split; [exact (to_seq _ _ _ X1)|]. split; [discriminate|]. intros tg y N.
      apply norm_list in N as (k' & l' & -> & _ & N). destruct (X2 l' N) as (vs & S & E). exists (VSeq KTuple vs). split; [now constructor|].
      eapply (from_step tg (TTuple _)); [reflexivity|now apply type_is_gen|reflexivity|reflexivity|intros n; unfold from_obj_body; rewrite first_de_none; reflexivity|].
      eapply ev_mono; [exact E|]. cbv beta. intros n H. cbn [iter bind].
      assert (L : length l' = length (map fst ts)).
      { destruct X1 as [n0 X1]. specialize (X1 n0 (le_n _)). apply mapM_Ok in X1. apply Forall2_len in X1. apply Forall2_len in N. rewrite map_length in *. lia. }
      assert (M : forall pre post ys vs, length ys = length post -> Forall2 (fun ty v => run n (QFromObj (TagExternal, fst ty) (snd ty) nm ro' dn) = Ok v) (combine post ys) vs ->
        mapMi_from (fun i e => a <- of_option XIndex (nth_opt (pre ++ post) i) ;; run n (QFromObj (TagExternal, a) e nm ro' dn)) (length pre) ys = Ok vs).
      { intros pre post ys. revert pre post. induction ys as [|y ys IH]; intros pre [|a post] ws Ly G; cbn in Ly; try lia; cbn [combine] in G; inversion G; subst; [reflexivity|].
        cbn [mapMi_from]. assert (NP : nth_opt (pre ++ a :: post) (length pre) = Some a) by (clear; induction pre; [reflexivity|exact IHpre]). rewrite NP. cbn [of_option bind].
        cbn [fst snd] in *. match goal with Q : run n _ = Ok _ |- _ => rewrite Q end. cbn [bind]. specialize (IH (pre ++ [a]) post l'0).
        rewrite <- app_assoc in IH. cbn [app] in IH. rewrite app_length in IH. cbn [length] in IH. rewrite Nat.add_1_r in IH. rewrite IH; auto. }
      specialize (M [] _ _ _ L H). cbn [app length] in M. rewrite M. reflexivity.
    - (* TClass *)
      destruct HV as [(attrs & ->) HW]. destruct (wt_obj_inv _ _ _ _ _ _ _ HW) as (d & Hd & _).
      destruct (class_trip P W K NoSers NoDes ord txt seq sk Q c d attrs nm ro rc skip None ro' dn TagExternal HF HI (HR c d Hd) HS HQ HT Hd HW I) as (x & X1 & X2 & _).
      exists x. split; [exact X1|]. split.
      + intros NV NN. exact (wire_nonnull P W ord txt seq _ _ _ sk Q (flag ro' (c_reuse d)) (HR c d Hd) (TClass c) nm TagExternal false _ x I NN HW (X2 TagExternal) NV).
      + intros tg y N. destruct (class_trip P W K NoSers NoDes ord txt seq sk Q c d attrs nm ro rc skip None ro' dn tg HF HI (HR c d Hd) HS HQ HT Hd HW I) as (x' & X1' & _ & X3).
        assert (x' = x) by (destruct (ev_and _ _ X1 X1') as [n0 Q0]; specialize (Q0 n0 (le_n _)); destruct Q0; congruence). subst x'. exact (X3 y N).
    - (* TStr *)
      destruct HV as (s & -> & HC). exists (if flag ro true then VInst k s else VStr s). split; [|split].
      + exists 2. intros [|[|m]] Hm; [lia..|]. now apply (wrapped (TStr k)).
      + intros _ _. destruct (flag ro true); discriminate.
      + intros tg y N. exists (VInst k s). split; [constructor|]. destruct (flag ro true) eqn:E.
        * assert (y = VInst k s) by (inversion N; subst; try discriminate; reflexivity). subst y.
          exists 1. intros [|m] Hm; [lia|]. cbn [Eval.run step unalias type_is]. now rewrite String.eqb_refl.
        * assert (y = VStr s) by (inversion N; subst; try discriminate; reflexivity). subst y.
          eapply (from_step tg (TStr k)); [reflexivity|reflexivity|reflexivity|reflexivity|intros m; unfold from_obj_body; rewrite first_de_none; reflexivity|]. apply ev_always. intros m. exact HC.
    - (* TDate *)
      destruct HV as (s & -> & HC). exists (if flag ro true then VDate k s else VStr s). split; [|split].
      + exists 2. intros [|[|m]] Hm; [lia..|]. now apply (wrapped (TDate k)).
      + intros _ _. destruct (flag ro true); discriminate.
      + intros tg y N. exists (VDate k s). split; [constructor|]. destruct (flag ro true) eqn:E.
        * assert (y = VDate k s) by (inversion N; subst; try discriminate; reflexivity). subst y.
          exists 1. intros [|m] Hm; [lia|]. cbn [Eval.run step unalias type_is]. now rewrite String.eqb_refl.
        * assert (y = VStr s) by (inversion N; subst; try discriminate; reflexivity). subst y.
          eapply (from_step tg (TDate k)); [reflexivity|reflexivity|reflexivity|reflexivity|intros m; unfold from_obj_body; rewrite first_de_none; reflexivity|]. apply ev_always. intros m. exact HC.
    - (* TAlias *)
      destruct HV as [UA HV]. destruct (IHt v HV) as (x & X1 & X2 & X3). exists x. split; [exact X1|]. split; [exact X2|]. intros tg y N. destruct (X3 tg y N) as (v' & S & E). exists v'. split; [exact S|].
      eapply ev_mono; [exact E|]. cbv beta. intros [|k] H; [discriminate|]. cbn [Eval.run step] in H |- *. cbn [unalias]. rewrite UA in H. exact H.
  Qed.

  (** The class argument of to_dict selects code for unions only (Optional is not treated as one), and the class that the text of a
      path, date ... is written for. *)
  Definition no_union_arg (cc : option (tagging * pytype)) (v : pyval) : Prop :=
    match cc with
    | Some (_, t) => is_union (unalias t) && negb (is_opt (unalias t)) = false /\
        match v with VInst k _ => unalias t = TStr k \/ unalias t = TAny | VDate k _ => unalias t = TDate k \/ unalias t = TAny | _ => True end
    | None => True
    end.
  Lemma arg_ignored cc v n : no_union_arg cc v -> run n (QToObj v nm ro rc skip cc) = run n (QToObj v nm ro rc skip None).
  Proof.
    intros NU. destruct n as [|n]; [reflexivity|]. cbn [Eval.run step]. f_equal. destruct cc as [[tg t]|]; [|reflexivity].
    cbn [no_union_arg] in NU. destruct NU as [NU NV]. unfold to_obj_body. cbn [option_map fst snd].
    assert (NV' : match v with VInst _ _ | VDate _ _ => False | _ => True end \/ (exists k s, v = VInst k s /\ (unalias t = TStr k \/ unalias t = TAny)) \/
                  (exists k s, v = VDate k s /\ (unalias t = TDate k \/ unalias t = TAny))) by (destruct v; eauto 8).
    destruct NV' as [NV'|[(k & s & -> & [E|E])|(k & s & -> & [E|E])]]; [|now rewrite E..].
    destruct (unalias t); try (destruct v; try contradiction; reflexivity).
    cbn [is_union andb] in NU. apply negb_false_iff in NU. rewrite NU. destruct v; try contradiction; reflexivity.
  Qed.

  Lemma top_trip t v cc tg : topv t v -> no_union_arg cc v ->
    exists x, ev (fun n => run n (QToObj v nm ro rc skip cc) = Ok x) /\
      forall y, norm x y -> exists v', same ord v v' /\ ev (fun n => run n (QFromObj (tg, t) y nm ro' dn) = Ok v').
  Proof.
    intros HV NU. destruct (top_trips t v HV) as (x & X1 & _ & X3). exists x. split; [|exact (X3 tg)].
    eapply ev_mono; [exact X1|]. cbv beta. intros n E. now rewrite (arg_ignored cc v n NU).
  Qed.
End Top.

Lemma topv_mono P W sk sk' (Q Q' : classdef -> Prop) (raw raw' : pyval -> Prop) :
  (sk' = true -> sk = true) -> (forall d, Q d -> Q' d) -> (forall v, raw v -> raw' v) ->
  forall t v, topv P W sk Q raw t v -> topv P W sk' Q' raw' t v.
Proof.
  intros HS HQ HR. induction t using pytype_ind'; intros v HV; cbn [topv] in HV |- *; try contradiction; auto.
  - destruct HV. auto.
  - destruct l as [|a [|b [|]]]; try contradiction; destruct b; try contradiction. inversion H as [|? ? IHa _]; subst. destruct HV as [Ha [->|(X1 & X2 & X3)]]; (split; [exact Ha|]); [now left|right]. split; [exact X1|]. split; [exact X2|exact (IHa v X3)].
  - destruct HV as (l & E & F). exists l. split; auto. eapply Forall_impl; [|exact F]. exact IHt.
  - destruct HV as (l & E & F & D & X). exists l. repeat split; auto. eapply Forall_impl; [|exact F]. exact IHt.
  - destruct HV as (l & E & F). exists l. split; auto. eapply Forall_impl; [|exact F]. exact IHt.
  - destruct HV as (l & E & NK & EK & F & D). exists l. repeat split; auto. eapply Forall_impl; [|exact F]. intros [a b] [A B]. split; cbn [fst snd] in *; auto.
  - destruct HV as (l0 & E & HV). exists l0. split; auto. clear E. revert l0 HV. induction H as [|a l Ha _ IH]; intros [|x l0] HV; try contradiction; [exact I|]. destruct HV as [V1 V2]. split; [exact (Ha x V1)|exact (IH l0 V2)].
  - destruct HV as [E HW]. split; auto. eapply wt_mono; [..|apply le_n|exact HW]; auto.
  - destruct HV as [UA HV]. split; [exact UA|exact (IHt v HV)].
Qed.

Section TopProps.
  Variables (P : program) (W : world) (K : list (tagging * pytype)).
  Hypothesis NoSers : p_sers P = [].
  Hypothesis NoDes : p_des P = [].

  (** C52.  from_dict(T, to_dict(v)) for a container type T of dataclasses *)
  Theorem C52_dict_round_trip t v ro rc skip cc ro' tg :
    topv P W skip (fun _ => True) (fun v => plain v = true) t v ->
    no_union_arg cc v ->
    (forall c d, get_class P c = Some d -> flag ro (c_reuse d) = true -> flag ro' (c_reuse d) = true) ->
    exists x N, forall n, N <= n ->
      to_dict P W K n v cc ro rc skip = Ok x /\
      from_dict P W K n (tg, t) x ro' None = Ok v.
  Proof.
    intros HV NU HR.
    destruct (top_trip P W K NoSers NoDes false false None skip (fun _ => True) true ro rc ro' skip None) with (t := t) (v := v) (cc := cc) (tg := tg) as (x & X1 & X2); auto; try discriminate.
    - intros c d Hd E. split; [|reflexivity]. exact (HR c d Hd E).
    - intros d' _. apply class_fmt_false.
    - eapply topv_mono; [..|exact HV]; auto. apply plain_survives.
    - destruct (X2 x) as [v' [S X3]]; [now constructor|]. apply same_false with (1 := le_n _) in S. subst v'.
      destruct (ev_and _ _ X1 X3) as [N HN]. exists x, N. exact HN.
  Qed.

  Lemma top_format ord txt seq J sk (Q : classdef -> Prop) t v nm skip cc dn tg :
    codec_law ord txt seq J ->
    (forall h, dn = Some h -> forall f, h (VFloat f) = Ok (VFloat f)) ->
    (txt = true -> forall z, w_int_of_str W (z_str z) = Some z) ->
    (skip = true -> sk = true) ->
    (forall d, Q d -> class_fmt ord txt P (has_some dn) d) ->
    (nm = false -> forall d, Q d -> tuple_class d) ->
    topv P W sk Q (survives ord txt seq) t v -> no_union_arg cc v ->
    exists x v' N, same ord v v' /\ forall n, N <= n ->
      run P W K n (QToObj v nm (Some false) (Some true) skip cc) = Ok x /\
      forall s, dumps J x = Ok s ->
        (y <- loads J s ;; run P W K n (QFromObj (tg, t) y nm (Some false) dn)) = Ok v'.
  Proof.
    intros HJ HF HI HS HQ HT HV NU.
    destruct (top_trip P W K NoSers NoDes ord txt seq sk Q nm (Some false) (Some true) (Some false) skip dn) with (t := t) (v := v) (cc := cc) (tg := tg) as (x & X1 & X2); auto; try discriminate.
    exists x. destruct (dumps J x) as [s| |] eqn:D.
    - destruct (HJ _ _ D) as [y [L N]]. destruct (X2 y N) as [v' [S X3]]. exists v'.
      destruct (ev_and _ _ X1 X3) as [m HN]. exists m. split; auto. intros n Hn. destruct (HN n Hn) as [A B]. split; auto.
      intros s' E. injection E as <-. rewrite L. exact B.
    - destruct X1 as [m X1]. exists v, m. split; [constructor|]. intros n Hn. split; auto. discriminate.
    - destruct X1 as [m X1]. exists v, m. split; [constructor|]. intros n Hn. split; auto. discriminate.
  Qed.

  (** The same through JSON, YAML and MsgPack *)
  Theorem C52_json_round_trip J t v skip cc tg coerce :
    codec_law false true (Some KList) J ->
    (forall z, w_int_of_str W (z_str z) = Some z) ->
    topv P W skip (class_fmt false true P coerce) (survives false true (Some KList)) t v ->
    no_union_arg cc v ->
    exists x N, forall n, N <= n ->
      to_json P W K J n v cc skip = dumps J x /\
      forall s, dumps J x = Ok s -> from_json P W K J n (tg, t) s coerce = Ok v.
  Proof.
    intros HJ HI HV NU. set (dn := if coerce then Some (deserialize_json_numbers P W) else None).
    assert (Ehk : has_some dn = coerce) by (unfold dn; now destruct coerce).
    destruct (top_format false true (Some KList) J skip (class_fmt false true P coerce) t v true skip cc dn tg) as (x & v' & N & S & X); auto; try discriminate.
    - intros h Eh f. unfold dn in Eh. destruct coerce; [|discriminate]. injection Eh as <-. apply json_hook_float.
    - intros d' H. now rewrite Ehk.
    - apply same_false with (1 := le_n _) in S. subst v'. exists x, N. intros n Hn. destruct (X n Hn) as [A B]. unfold to_json, to_dict. rewrite A. split; auto.
  Qed.
  Theorem C52_yaml_round_trip J t v skip cc tg coerce :
    codec_law true false (Some KList) J ->
    topv P W skip (class_fmt true false P coerce) (survives true false (Some KList)) t v ->
    no_union_arg cc v ->
    exists x v' N, same true v v' /\ forall n, N <= n ->
      to_yaml P W K J n v cc skip = dumps J x /\
      forall s, dumps J x = Ok s -> from_yaml P W K J n (tg, t) s coerce = Ok v'.
  Proof.
    intros HJ HV NU. set (dn := if coerce then Some (deserialize_yaml_numbers P W) else None).
    assert (Ehk : has_some dn = coerce) by (unfold dn; now destruct coerce).
    destruct (top_format true false (Some KList) J skip (class_fmt true false P coerce) t v true skip cc dn tg) as (x & v' & N & S & X); auto; try discriminate.
    - intros h Eh f. unfold dn in Eh. destruct coerce; [|discriminate]. injection Eh as <-. apply yaml_hook_float.
    - intros d' H. now rewrite Ehk.
    - exists x, v', N. split; auto. intros n Hn. destruct (X n Hn) as [A B]. unfold to_yaml, to_json, to_dict. rewrite A. split; auto.
  Qed.
  Theorem C52_msgpack_round_trip J t v cc tg (named : bool) :
    codec_law false false (Some KTuple) J ->
    topv P W false (fun d => named = false -> tuple_class d) (survives false false (Some KTuple)) t v ->
    no_union_arg cc v ->
    exists x N, forall n, N <= n ->
      to_msgpack P W K J n v cc named = dumps J x /\
      forall s, dumps J x = Ok s -> from_msgpack P W K J n (tg, t) s named = Ok v.
  Proof.
    intros HJ HV NU.
    destruct (top_format false false (Some KTuple) J false (fun d => named = false -> tuple_class d) t v named false cc None tg) as (x & v' & N & S & X); auto; try discriminate.
    - intros d' _. apply class_fmt_false.
    - apply same_false with (1 := le_n _) in S. subst v'. exists x, N. intros n Hn. destruct (X n Hn) as [A B].
      unfold to_msgpack, from_msgpack, to_dict, to_tuple, from_dict, from_tuple. destruct named; rewrite A; split; auto.
  Qed.
End TopProps.

(** What does not round trip: tuple[Foo, ...] and an alias of an alias *)
Module TopEx.
  Import TripEx.
  Definition lf := VObj "Leaf" [("name", VStr "x")].
  Lemma lf_wt : wt p w false (fun _ => True) (fun v => plain v = true) lf (TClass "Leaf").
  Proof. apply (wtb_ok p w false _ _ plain frag (fun _ _ => I) (fun _ H => H) 20). vm_compute. reflexivity. Qed.
  Definition ty := TDict DkDict (TPrim PStr) (TList LList (TOpt (TTuple [TClass "Leaf"; TSet SkSet TInt; TAlias "Whatever" TAny]))).
  Definition val := VMap MDict [(VStr "a", VSeq KList [VNone; VSeq KTuple [lf; VSeq KSet [VInt 1; VInt 2]; vlist [VInt 7]]]); (VStr "b", VSeq KList [])].
  Example val_top : topv p w false (fun _ => True) (fun v => plain v = true) ty val.
  Proof.
    unfold ty, val. eexists. split; [reflexivity|]. split; [discriminate|]. split; [reflexivity|]. split; [|apply distinctb_ok; reflexivity].
    repeat constructor; cbn [fst snd]; eexists; (split; [reflexivity|]); [|constructor].
    constructor; [split; [reflexivity|now left]|]. constructor; [|constructor]. split; [reflexivity|]. right. split; [discriminate|]. split; [reflexivity|].
    eexists. split; [reflexivity|]. split; [split; [eexists; reflexivity|apply lf_wt]|]. split; [|repeat split].
    eexists. split; [reflexivity|]. split; [repeat constructor|]. split; [apply distinctb_ok; reflexivity|]. eexists. reflexivity.
  Qed.
  Example val_trip : exists x N, forall n, N <= n ->
    to_dict p w [] n val None None None false = Ok x /\ from_dict p w [] n (TagExternal, ty) x None None = Ok val.
  Proof. apply C52_dict_round_trip; [reflexivity|reflexivity|exact val_top|exact I|]. intros c d _ E. exact E. Qed.
  Example val_form : to_dict p w [] 20 val None None None false =
    Ok (VMap MDict [(VStr "a", vlist [VNone; VSeq KTuple [dict [("Name", VStr "x")]; vlist [VInt 1; VInt 2]; vlist [VInt 7]]]); (VStr "b", vlist [])]).
  Proof. vm_compute. reflexivity. Qed.
  (** Paths and dates: kept as they are unless reuse_instances=False *)
  Definition pty := TTuple [TStr "Path"; TList LList (TOpt (TDate "date"))].
  Definition pval := VSeq KTuple [VInst "Path" "/tmp"; vlist [VNone; VDate "date" "2024-01-01"]].
  Example pval_top : topv p w false (fun _ => True) (fun v => plain v = true) pty pval.
  Proof.
    eexists. split; [reflexivity|]. split; [eexists; split; reflexivity|]. split; [|exact I]. eexists. split; [reflexivity|].
    constructor; [split; [reflexivity|now left]|]. constructor; [|constructor]. split; [reflexivity|]. right. split; [discriminate|]. split; [reflexivity|].
    eexists. split; reflexivity.
  Qed.
  Example pval_form : to_dict p w [] 20 pval None (Some false) None false = Ok (VSeq KTuple [VStr "/tmp"; vlist [VNone; VStr "2024-01-01"]]) /\
    to_dict p w [] 20 pval None None None false = Ok pval.
  Proof. split; vm_compute; reflexivity. Qed.
  (** [val] can be written as JSON, YAML and MsgPack *)
  Lemma lf_json : wt p w false (class_fmt false true p true) (survives false true (Some KList)) lf (TClass "Leaf").
  Proof. apply (wtb_ok p w false _ _ (robust KList) frag (fmt false) (fun v => robust_survives _ _ _ _ v (le_n _)) 20). vm_compute. reflexivity. Qed.
  Lemma lf_yaml : wt p w false (class_fmt true false p true) (survives true false (Some KList)) lf (TClass "Leaf").
  Proof. apply (wtb_ok p w false _ _ (robust KList) frag (fmt_yaml true) (fun v => robust_survives _ _ _ _ v (le_n _)) 20). vm_compute. reflexivity. Qed.
  Example list_json : topv p w false (class_fmt false true p true) (survives false true (Some KList)) (TList LList (TClass "Leaf")) (vlist [lf; lf]).
  Proof. eexists. split; [reflexivity|]. repeat (constructor; [split; [eexists; reflexivity|apply lf_json]|]). constructor. Qed.
  Example list_yaml : topv p w false (class_fmt true false p true) (survives true false (Some KList)) (TList LList (TClass "Leaf")) (vlist [lf; lf]).
  Proof. eexists. split; [reflexivity|]. repeat (constructor; [split; [eexists; reflexivity|apply lf_yaml]|]). constructor. Qed.
End TopEx.
Import TopEx.

Theorem C52_vartuple_refuted : exists P W v x, p_sers P = [] /\ p_des P = [] /\
  Forall (fun e => wt P W false (fun _ => True) (fun v => plain v = true) e (TClass "Leaf")) [lf] /\ v = VSeq KTuple [lf] /\
  to_dict P W [] 20 v None None None false = Ok x /\
  from_dict P W [] 20 (TagExternal, TVarTuple (TClass "Leaf")) x None None = Ok (VSeq KTuple [dict [("Name", VStr "x")]]).
Proof.
  exists TripEx.p, TripEx.w, (VSeq KTuple [lf]). eexists. split; [reflexivity|]. split; [reflexivity|]. split; [repeat constructor; apply lf_wt|].
  split; [reflexivity|]. split; vm_compute; reflexivity.
Qed.
Theorem C52_alias_refuted : exists P W x e, p_sers P = [] /\ p_des P = [] /\
  topv P W false (fun _ => True) (fun v => plain v = true) (TAlias "A" (TClass "Leaf")) lf /\
  to_dict P W [] 20 lf None None None false = Ok x /\
  from_dict P W [] 20 (TagExternal, TAlias "A" (TClass "Leaf")) x None None = Ok lf /\
  from_dict P W [] 20 (TagExternal, TAlias "B" (TAlias "A" (TClass "Leaf"))) x None None = Raise e.
Proof.
  exists TripEx.p, TripEx.w. eexists. eexists. split; [reflexivity|]. split; [reflexivity|].
  split; [split; [reflexivity|]; split; [eexists; reflexivity|apply lf_wt]|]. split; [vm_compute; reflexivity|]. split; vm_compute; reflexivity.
Qed.

Print Assumptions C52_dict_round_trip.
Print Assumptions C52_json_round_trip.
Print Assumptions C52_yaml_round_trip.
Print Assumptions C52_msgpack_round_trip.
Print Assumptions C52_vartuple_refuted.
Print Assumptions C52_alias_refuted.
