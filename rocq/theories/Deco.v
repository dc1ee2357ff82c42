(** Decorating classes: the generation of functions for the class and for the classes found on the
    way.  Properties C31, C48. *)
From Coq Require Import String List ZArith Bool Ascii Lia Permutation.
From Verif Require Import Base PyVal PyType Program Compat Syntax SeRender DeRender Eval Facts Spec Cover Walk Ex.
Import ListNotations.
Open Scope string_scope.
Open Scope list_scope.

(** * Generating the functions *)

(** The options of serialize / deserialize that are kept outside of the generated text:
    scope.transparent (se.py:263, de.py:303) and whether the class is handed to beartype
    (se.py:244-246, de.py:284-286). *)
Record dopt := mkDopt { o_transparent : bool; o_strict : bool }.
(** The defaults used for a class found on the way (se.py:291, de.py:348): type_check is strict *)
Definition dopt_default : dopt := mkDopt false true.

(** [ds_funcs]: classes whose scope has the generated functions; [ds_stack]: GENERATION_STACK;
    [ds_transp]: scope.transparent of the classes with a scope; [ds_strict]: classes handed to
    beartype; [ds_log]: classes in the order in which their functions were generated (latest
    first), with the value of scope.transparent that the text was generated for. *)
Record dstate := mkDstate {
  ds_funcs : list string;
  ds_stack : list string;
  ds_transp : list (string * bool);
  ds_strict : list string;
  ds_log : list (string * bool)
}.

Section Decorate.
  Variable P : program.
  (** The classes in iter_types(cls), in the order in which the Python set yields them *)
  Variable succs : string -> list string.

  Definition push (c : string) (st : dstate) : dstate :=
    mkDstate (ds_funcs st) (c :: ds_stack st) (ds_transp st) (ds_strict st) (ds_log st).
  Definition pop (st : dstate) : dstate :=
    mkDstate (ds_funcs st) (tl (ds_stack st)) (ds_transp st) (ds_strict st) (ds_log st).

  (** is_dataclass_without_se (se.py:363-371) / is_dataclass_without_de (de.py:438-446) *)
  Definition without_funcs (st : dstate) (c : string) : bool :=
    match get_class P c with Some _ => negb (smem c (ds_funcs st)) | None => false end.

  (** Start of wrap (se.py:240-263, de.py:280-303): beartype, the scope, scope.transparent *)
  Definition enter (c : string) (o : dopt) (st : dstate) : dstate :=
    mkDstate (ds_funcs st) (ds_stack st) ((c, o_transparent o) :: ds_transp st)
      (if o_strict o then c :: ds_strict st else ds_strict st) (ds_log st).
  (** End of wrap (se.py:307-323, de.py:386-407): the functions are generated, for the value
      scope.transparent has now *)
  Definition finish (c : string) (st : dstate) : dstate :=
    mkDstate (c :: ds_funcs st) (ds_stack st) (ds_transp st) (ds_strict st)
      ((c, match slookup c (ds_transp st) with Some b => b | None => false end) :: ds_log st).

  (** for typ in iter_types(cls) (se.py:286-295, de.py:343-362) *)
  Fixpoint visit (ser : string -> dstate -> option dstate) (c : string) (l : list string) (st : dstate) : option dstate :=
    match l with
    | [] => Some st
    | x :: r =>
      if without_funcs st x && negb (String.eqb x c)
      then match ser x st with Some st' => visit ser c r st' | None => None end
      else visit ser c r st
    end.

  (** wrap (se.py:236-327, de.py:271-409) and serialize(cls, ...) (se.py:334-341, de.py:414-421).
      None: the bound on the recursion is reached. *)
  Fixpoint wrap (n : nat) (c : string) (o : dopt) (st : dstate) : option dstate :=
    match n with
    | O => None
    | S n =>
      match visit (fun x st => if smem x (ds_stack st) then Some st
                               else option_map pop (wrap n x dopt_default (push x st)))
                  c (succs c) (enter c o st) with
      | Some st' => Some (finish c st')
      | None => None
      end
    end.
  (** serialize(cls, ...): also what @serialize without arguments and @serde(...) do *)
  Definition decorate (n : nat) (c : string) (o : dopt) (st : dstate) : option dstate :=
    if smem c (ds_stack st) then Some st else option_map pop (wrap n c o (push c st)).
  (** @serialize(...): the decorator returned is wrap itself (se.py:331-332, de.py:411-412) *)
  Definition decorate_factory (n : nat) (c : string) (o : dopt) (st : dstate) : option dstate := wrap n c o st.

  Definition ser_default (n : nat) (x : string) (st : dstate) : option dstate := decorate n x dopt_default st.

  Hypothesis succs_known : forall c x, In x (succs c) -> exists d, get_class P x = Some d.

  (** Classes that may still be generated *)
  Definition todo (l : list string) : nat :=
    List.length (filter (fun d => negb (smem (c_id d) l)) (p_classes P)).
  Lemma todo_mono l l' : incl l l' -> todo l' <= todo l.
  Proof.
    intros I. unfold todo. induction (p_classes P) as [|d r IH]; cbn [filter List.length]; [lia|].
    destruct (smem (c_id d) l) eqn:E.
    - apply smem_In in E. apply I in E. apply smem_In in E. rewrite E. exact IH.
    - cbn [negb]. destruct (smem (c_id d) l'); cbn [negb List.length]; lia.
  Qed.
  Lemma todo_less l c d : get_class P c = Some d -> smem c l = false -> todo (c :: l) < todo l.
  Proof.
    intros G E. unfold get_class in G. apply find_class_id in G as [I H]. unfold todo.
    assert (M : forall r, List.length (filter (fun d => negb (smem (c_id d) (c :: l))) r) <=
                List.length (filter (fun d => negb (smem (c_id d) l)) r)).
    { clear. induction r as [|y r IH]; cbn [filter List.length]; [lia|].
      destruct (smem (c_id y) l) eqn:E.
      - assert (smem (c_id y) (c :: l) = true) as ->
          by (apply smem_In; right; now apply smem_In). exact IH.
      - cbn [negb]. destruct (smem (c_id y) (c :: l)); cbn [negb List.length]; lia. }
    induction (p_classes P) as [|x r IH]; [contradiction|]. specialize (M r).
    cbn [filter]. destruct H as [->|H].
    - rewrite I, E.
      assert (smem c (c :: l) = true) as -> by (apply smem_In; now left).
      cbn [negb List.length]. lia.
    - specialize (IH H). destruct (smem (c_id x) l) eqn:E2.
      + assert (smem (c_id x) (c :: l) = true) as -> by (apply smem_In; right; now apply smem_In). exact IH.
      + cbn [negb]. destruct (smem (c_id x) (c :: l)); cbn [negb List.length]; lia.
  Qed.

  (** What generating for some classes changes: [new] are the log entries added. *)
  Record grows (R : string -> Prop) (st st' : dstate) (new : list (string * bool)) : Prop := mkGrows {
    g_log : ds_log st' = new ++ ds_log st;
    g_funcs : ds_funcs st' = map fst new ++ ds_funcs st;
    g_stack : ds_stack st' = ds_stack st;
    g_nodup : NoDup (map fst new);
    g_fresh : forall x, In x (map fst new) -> ~ In x (ds_funcs st) /\ ~ In x (ds_stack st);
    g_from : forall x, In x (map fst new) -> R x;
    g_default : forall x b, In (x, b) new -> b = false;
    g_transp : forall x, ~ In x (map fst new) -> slookup x (ds_transp st') = slookup x (ds_transp st);
    g_strict : forall x, In x (ds_strict st') <-> In x (map fst new) \/ In x (ds_strict st)
  }.

  Lemma grows_refl R st : grows R st st [].
  Proof. constructor; simpl; auto; try contradiction; [constructor|tauto]. Qed.
  Lemma grows_trans R st st1 st2 n1 n2 : grows R st st1 n1 -> grows R st1 st2 n2 -> grows R st st2 (n2 ++ n1).
  Proof.
    intros A B. destruct A as [A1 A2 A3 A4 A5 A6 A7 A8 A9], B as [B1 B2 B3 B4 B5 B6 B7 B8 B9].
    constructor.
    - rewrite B1, A1. now rewrite app_assoc.
    - rewrite B2, A2, map_app. now rewrite app_assoc.
    - now rewrite B3.
    - rewrite map_app. apply NoDup_app_intro; auto.
      intros x Hx H1. apply B5 in Hx as [Hx _]. apply Hx. rewrite A2. apply in_or_app; auto.
    - intros x. rewrite map_app, in_app_iff. intros [H|H]; [|auto].
      apply B5 in H as [H1 H2]. rewrite A2 in H1. rewrite A3 in H2. split; [|exact H2].
      intros H; apply H1, in_or_app; auto.
    - intros x. rewrite map_app, in_app_iff. intros [H|H]; auto.
    - intros x b. rewrite in_app_iff. intros [H|H]; eauto.
    - intros x. rewrite map_app, in_app_iff. intros H. rewrite B8, A8; tauto.
    - intros x. rewrite B9, A9, map_app, in_app_iff. tauto.
  Qed.
  Lemma grows_R (R R' : string -> Prop) st st' new : (forall x, R x -> R' x) -> grows R st st' new -> grows R' st st' new.
  Proof. intros H [? ? ? ? ? ? ? ? ?]; constructor; auto. Qed.

  (** The classes found from a class: also those found from them (iter_types is transitive) *)
  Hypothesis succs_trans : forall x y z, In y (succs x) -> In z (succs y) -> In z (succs x).

  Definition good (k : nat) (ser : string -> dstate -> option dstate) : Prop :=
    forall x d st, get_class P x = Some d -> ~ In x (ds_funcs st) -> todo (ds_stack st ++ ds_funcs st) <= k ->
      exists st' new, ser x st = Some st' /\ grows (fun y => y = x \/ In y (succs x)) st st' new /\
        (In x (ds_funcs st') \/ In x (ds_stack st)).

  Lemma visit_ok k ser c : good k ser -> forall l st,
    (forall x, In x l -> In x (succs c)) ->
    todo (ds_stack st ++ ds_funcs st) <= k ->
    exists st' new, visit ser c l st = Some st' /\ grows (fun y => In y (succs c)) st st' new /\
      forall x, In x l -> x = c \/ In x (ds_funcs st') \/ In x (ds_stack st).
  Proof.
    intros G. induction l as [|x l IH]; intros st Hl L; simpl.
    - exists st, []. split; [reflexivity|]. split; [apply grows_refl|contradiction].
    - assert (Hl' : forall x, In x l -> In x (succs c)) by (intros; apply Hl; now right).
      destruct (without_funcs st x && negb (x =? c)) eqn:E.
      + apply andb_prop in E as [E1 E2]. unfold without_funcs in E1.
        destruct (get_class P x) as [d|] eqn:Gx; [|discriminate].
        assert (N : ~ In x (ds_funcs st)).
        { intros H. apply smem_In in H. rewrite H in E1. discriminate. }
        destruct (G x d st Gx N L) as [st1 [n1 [R1 [W1 F1]]]]. rewrite R1.
        assert (L1 : todo (ds_stack st1 ++ ds_funcs st1) <= k).
        { rewrite (g_stack _ _ _ _ W1), (g_funcs _ _ _ _ W1).
          etransitivity; [|exact L]. apply todo_mono.
          intros y. rewrite !in_app_iff. tauto. }
        destruct (IH st1 Hl' L1) as [st2 [n2 [R2 [W2 F2]]]].
        exists st2, (n2 ++ n1). split; [exact R2|]. split.
        * apply grows_trans with st1; [|exact W2].
          eapply grows_R; [|exact W1]. intros y [->|Hy]; [apply Hl; now left|].
          eapply succs_trans; [apply Hl; now left|exact Hy].
        * intros y [<-|Hy].
          -- destruct F1 as [F1|F1]; [|auto]. right; left. rewrite (g_funcs _ _ _ _ W2). apply in_or_app; auto.
          -- destruct (F2 y Hy) as [F|[F|F]]; auto. rewrite (g_stack _ _ _ _ W1) in F. auto.
      + destruct (IH st Hl' L) as [st2 [n2 [R2 [W2 F2]]]].
        exists st2, n2. split; [exact R2|]. split; [exact W2|].
        intros y [<-|Hy]; [|auto].
        apply andb_false_iff in E as [E|E].
        * unfold without_funcs in E. destruct (succs_known c x (Hl x (or_introl eq_refl))) as [d Gx].
          rewrite Gx in E. apply negb_false_iff in E. apply smem_In in E.
          right; left. rewrite (g_funcs _ _ _ _ W2). apply in_or_app; auto.
        * apply negb_false_iff in E. apply String.eqb_eq in E. auto.
  Qed.

  (** One run of wrap for a class on the stack *)
  Lemma wrap_ok k n c o st : good k (ser_default n) -> In c (ds_stack st) ->
    todo (ds_stack st ++ ds_funcs st) <= k ->
    exists st' new, wrap (S n) c o st = Some st' /\
      ds_log st' = (c, o_transparent o) :: new ++ ds_log st /\
      ds_funcs st' = c :: map fst new ++ ds_funcs st /\
      ds_stack st' = ds_stack st /\
      NoDup (map fst new) /\
      (forall x, In x (map fst new) -> ~ In x (ds_funcs st) /\ ~ In x (ds_stack st) /\ In x (succs c)) /\
      (forall x b, In (x, b) new -> b = false) /\
      (forall x, ~ In x (map fst new) -> x <> c -> slookup x (ds_transp st') = slookup x (ds_transp st)) /\
      (forall x, In x (ds_strict st') <-> In x (map fst new) \/ (x = c /\ o_strict o = true) \/ In x (ds_strict st)) /\
      (forall x, In x (succs c) -> In x (ds_funcs st') \/ In x (ds_stack st)).
  Proof.
    intros G Hc L. cbn [wrap].
    destruct (visit_ok k (ser_default n) c G (succs c) (enter c o st) (fun x H => H) L) as [st2 [new [R [W F]]]].
    unfold ser_default, decorate in R. rewrite R.
    assert (Nc : ~ In c (map fst new)) by (intros H; now apply (g_fresh _ _ _ _ W) in H as [_ H]).
    exists (finish c st2), new. split; [reflexivity|].
    destruct W as [W1 W2 W3 W4 W5 W6 W7 W8 W9]. cbn in *.
    rewrite (W8 c Nc). cbn. rewrite String.eqb_refl.
    split; [now rewrite W1|]. split; [now rewrite W2|]. split; [exact W3|]. split; [exact W4|].
    split; [intros x Hx; destruct (W5 x Hx); auto|].
    split; [exact W7|].
    split; [|split].
    - intros x Hx Hn. rewrite (W8 x Hx). cbn. destruct (String.eqb_spec c x); [now subst|reflexivity].
    - intros x. rewrite W9. destruct (o_strict o); simpl; intuition congruence.
    - intros x Hx. destruct (F x Hx) as [->|[H|H]]; auto.
  Qed.

  Lemma decorate_good k : forall n, k <= n -> good k (ser_default n).
  Proof.
    induction k as [|k IH]; intros n Ln x d st Gx Nx L; unfold ser_default, decorate;
      destruct (smem x (ds_stack st)) eqn:E.
    1,3: exists st, []; split; [reflexivity|]; split; [apply grows_refl|right; now apply smem_In].
    all: assert (Hs : smem x (ds_stack st ++ ds_funcs st) = false).
    1,3: destruct (smem x (ds_stack st ++ ds_funcs st)) eqn:E2; [|reflexivity];
         apply smem_In in E2; apply in_app_or in E2 as [E2|E2]; [apply smem_In in E2; congruence|contradiction].
    all: pose proof (todo_less _ x d Gx Hs) as D.
    - lia.
    - destruct n as [|n]; [lia|].
      destruct (wrap_ok k n x dopt_default (push x st)) as [st' [new [R [A1 [A2 [A3 [A4 [A5 [A6 [A7 [A8 A9]]]]]]]]]]].
      + apply IH; lia.
      + now left.
      + cbn. change (todo (x :: ds_stack st ++ ds_funcs st) <= k). lia.
      + rewrite R. cbn [option_map]. exists (pop st'), ((x, false) :: new). split; [reflexivity|].
        cbn in *. split.
        * assert (Nn : ~ In x (map fst new)) by (intros H; apply A5 in H as [_ [H _]]; apply H; now left).
          assert (Ns : ~ In x (ds_stack st)) by (intros H; apply smem_In in H; congruence).
          constructor; cbn; auto.
          -- now rewrite A3.
          -- constructor; assumption.
          -- intros y [<-|Hy]; [auto|]. destruct (A5 y Hy) as [B1 [B2 _]]. auto.
          -- intros y [<-|Hy]; [auto|]. right. now apply A5.
          -- intros y b [H|H]; [now injection H as _ <-|eauto].
          -- intros y. rewrite A8. intuition congruence.
        * left. rewrite A2. now left.
  Qed.

  (** Decorating a class, nothing being generated at the moment *)
  Lemma decorate_ok c d o st n :
    get_class P c = Some d -> ds_stack st = [] -> List.length (p_classes P) < n ->
    exists st' new, decorate n c o st = Some st' /\
      ds_stack st' = [] /\
      ds_log st' = (c, o_transparent o) :: new ++ ds_log st /\
      NoDup (c :: map fst new) /\
      (forall x, In x (map fst new) <-> x <> c /\ In x (succs c) /\ ~ In x (ds_funcs st)) /\
      (forall x b, In (x, b) new -> b = false) /\
      (forall x, In x (ds_funcs st') <-> x = c \/ In x (succs c) \/ In x (ds_funcs st)) /\
      (forall x, In x (ds_strict st') <-> In x (map fst new) \/ (x = c /\ o_strict o = true) \/ In x (ds_strict st)).
  Proof.
    intros Gc Hs Ln. unfold decorate. rewrite Hs. cbn [smem].
    destruct n as [|n]; [lia|].
    destruct (wrap_ok (List.length (p_classes P)) n c o (push c st)) as [st' [new [R [A1 [A2 [A3 [A4 [A5 [A6 [A7 [A8 A9]]]]]]]]]]].
    - apply decorate_good; lia.
    - now left.
    - unfold todo. clear. induction (p_classes P) as [|x l IH]; cbn [filter List.length]; [lia|].
      destruct (negb _); cbn [List.length]; lia.
    - rewrite R. cbn [option_map]. exists (pop st'), new. split; [reflexivity|]. cbn in *.
      assert (Nn : ~ In c (map fst new)) by (intros H; apply A5 in H as [_ [H _]]; apply H; now left).
      rewrite Hs in *.
      split; [now rewrite A3|]. split; [exact A1|]. split; [now constructor|]. split; [|split; [exact A6|split; [|exact A8]]].
      + intros x. split.
        * intros Hx. destruct (A5 x Hx) as [B1 [B2 B3]]. split; [|auto]. intros ->. contradiction.
        * intros [Hx [Hy Hz]]. destruct (A9 x Hy) as [H|[H|[]]]; [|now symmetry in H].
          rewrite A2 in H. destruct H as [H|H]; [now symmetry in H|]. apply in_app_or in H as [H|H]; [exact H|contradiction].
      + intros x. split.
        * rewrite A2. intros [H|H]; [auto|]. apply in_app_or in H as [H|H]; [|auto]. right; left. now apply A5.
        * intros [->|[H|H]]; rewrite ?A2.
          -- now left.
          -- destruct (A9 x H) as [H'|[H'|[]]]; [now rewrite <- A2|now left].
          -- right. apply in_or_app; auto.
  Qed.
End Decorate.

(** * C31, second part, and C48 *)
Lemma reach_trans P d d' y t : reach P d (TClass y) -> get_class P y = Some d' -> reach P d' t -> reach P d t.
Proof.
  intros R G H. induction H as [|f t Hf Hs Ht|c d2 f t R2 IH G2 Hf Hs Ht].
  - now rewrite (get_class_id _ _ _ G).
  - eapply reach_class; eauto.
  - eapply reach_class; [exact IH| | | |]; eauto.
Qed.

(** Every class mentioned is a class of the program. *)
Definition classes_known (P : program) : Prop :=
  forall c d x, get_class P c = Some d -> reach P d (TClass x) -> exists d', get_class P x = Some d'.
(** [order] lists the classes found by iter_types in any order. *)
Definition some_order (P : program) (order : string -> list string) : Prop :=
  forall c, match get_class P c with
            | Some d => Permutation (order c) (classes_of (iter_types P d))
            | None => order c = []
            end.

Lemma order_In P order : some_order P order -> forall c x,
  In x (order c) <-> exists d, get_class P c = Some d /\ reach P d (TClass x).
Proof.
  intros O c x. specialize (O c). destruct (get_class P c) as [d|] eqn:G.
  - assert (G' : get_class P (c_id d) = Some d) by (now apply get_class_self in G).
    destruct (C31_iter_types P d G') as [I _]. split.
    + intros H. exists d. split; [reflexivity|]. apply I. now apply (Permutation_in _ O).
    + intros [d' [E R]]. injection E as <-. apply (Permutation_in _ (Permutation_sym O)). now apply I.
  - rewrite O. split; [contradiction|]. intros [d [H _]]. discriminate.
Qed.

(** serialize(cls, ...) terminates, generates functions for cls and for the classes reachable from
    it that have none yet, for each of them once and with default options, and leaves
    GENERATION_STACK as it was. *)
Theorem C31_decorate_partial P order c d o st :
  some_order P order -> classes_known P -> get_class P c = Some d -> ds_stack st = [] ->
  exists st' new,
    (forall n, List.length (p_classes P) < n -> decorate P order n c o st = Some st') /\
    ds_stack st' = [] /\
    ds_log st' = (c, o_transparent o) :: new ++ ds_log st /\
    NoDup (c :: map fst new) /\
    (forall x, In x (map fst new) <-> x <> c /\ reach P d (TClass x) /\ ~ In x (ds_funcs st)) /\
    (forall x b, In (x, b) new -> b = false) /\
    (forall x, In x (ds_funcs st') <-> reach P d (TClass x) \/ In x (ds_funcs st)).
Proof.
  intros O K G S.
  assert (SK : forall c x, In x (order c) -> exists d, get_class P x = Some d).
  { intros a x H. apply (order_In P order O) in H as [d' [G' R]]. eapply K; eauto. }
  assert (ST : forall x y z, In y (order x) -> In z (order y) -> In z (order x)).
  { intros x y z. rewrite !(order_In P order O). intros [dx [Gx Rx]] [dy [Gy Ry]].
    exists dx. split; [exact Gx|]. eapply reach_trans; eauto. }
  assert (OI : forall x, In x (order c) <-> reach P d (TClass x)).
  { intros x. rewrite (order_In P order O). split; [|eauto]. intros [d' [G' R]]. congruence. }
  destruct (decorate_ok P order SK ST c d o st _ G S (Nat.lt_succ_diag_r _)) as
    [st' [new [R [A1 [A2 [A3 [A4 [A5 [A6 A7]]]]]]]]].
  exists st', new. split.
  - intros n Ln.
    destruct (decorate_ok P order SK ST c d o st n G S Ln) as [st2 [new2 [R2 _]]].
    assert (M : forall a b st x, a <= b -> forall c o, wrap P order a c o st = Some x -> wrap P order b c o st = Some x).
    { clear. induction a as [|a IH]; intros b st x Lab c o H; [discriminate|].
      destruct b as [|b]; [lia|]. cbn [wrap] in *.
      assert (V : forall l st x, visit P (fun x st => if smem x (ds_stack st) then Some st
                else option_map pop (wrap P order a x dopt_default (push x st))) c l st = Some x ->
              visit P (fun x st => if smem x (ds_stack st) then Some st
                else option_map pop (wrap P order b x dopt_default (push x st))) c l st = Some x).
      { induction l as [|y l IHl]; intros st' x' HV; [exact HV|]. cbn [visit] in *.
        destruct (without_funcs P st' y && negb (y =? c)); [|auto].
        destruct (smem y (ds_stack st')); [auto|].
        destruct (wrap P order a y dopt_default (push y st')) as [w|] eqn:EW; [|discriminate].
        rewrite (IH b _ w ltac:(lia) y dopt_default EW). cbn [option_map] in *. auto. }
      destruct (visit P _ c (order c) (enter c o st)) as [st'|] eqn:EV; [|discriminate].
      now rewrite (V _ _ _ EV). }
    rewrite R2. unfold decorate in R, R2. rewrite S in R, R2. cbn [smem existsb] in R, R2.
    destruct (wrap P order (Datatypes.S (List.length (p_classes P))) c o (push c st)) as [w|] eqn:EW; [|discriminate].
    rewrite (M _ n _ w Ln c o EW) in R2. congruence.
  - split; [exact A1|]. split; [exact A2|]. split; [exact A3|]. split; [|split; [exact A5|]].
    + intros x. rewrite A4, OI. tauto.
    + intros x. rewrite A6, OI. split; [|tauto]. intros [->|H]; [left|tauto].
      rewrite <- (get_class_id _ _ _ G). apply reach_self.
Qed.

(** C48: the options given in serialize(cls, ...) (hence in @serde(...)) are the ones its functions
    are generated for, and only the classes generated on the way become strict besides. *)
Theorem C48_call_partial P order c d o st :
  some_order P order -> classes_known P -> get_class P c = Some d -> ds_stack st = [] ->
  exists st', (forall n, List.length (p_classes P) < n -> decorate P order n c o st = Some st') /\
    slookup c (ds_log st') = Some (o_transparent o) /\
    (forall x, In x (ds_strict st') <->
       In x (ds_strict st) \/ (x = c /\ o_strict o = true) \/
       (x <> c /\ reach P d (TClass x) /\ ~ In x (ds_funcs st))).
Proof.
  intros O K G S.
  destruct (C31_decorate_partial P order c d o st O K G S) as [st' [new [R [_ [L [_ [N _]]]]]]].
  exists st'. split; [exact R|]. split; [rewrite L; cbn; now rewrite String.eqb_refl|].
  assert (SK : forall c x, In x (order c) -> exists d, get_class P x = Some d).
  { intros a x H. apply (order_In P order O) in H as [d' [G' R']]. eapply K; eauto. }
  assert (ST : forall x y z, In y (order x) -> In z (order y) -> In z (order x)).
  { intros x y z. rewrite !(order_In P order O). intros [dx [Gx Rx]] [dy [Gy Ry]].
    exists dx. split; [exact Gx|]. eapply reach_trans; eauto. }
  destruct (decorate_ok P order SK ST c d o st _ G S (Nat.lt_succ_diag_r _)) as
    [st2 [new2 [R2 [_ [L2 [_ [_ [_ [_ B]]]]]]]]].
  rewrite (R _ (Nat.lt_succ_diag_r _)) in R2. injection R2 as <-.
  assert (new2 = new) as ->.
  { rewrite L in L2. injection L2 as L2. now apply app_inv_tail in L2. }
  intros x. rewrite B, N. tauto.
Qed.

(** ... and the options given in @serialize(...) are when every class reachable from the class
    has its functions already. *)
Theorem C48_factory_partial P order c d o st :
  some_order P order -> get_class P c = Some d ->
  (forall x, reach P d (TClass x) -> x <> c -> In x (ds_funcs st)) ->
  exists st', (forall n, decorate_factory P order (S n) c o st = Some st') /\
    ds_log st' = (c, o_transparent o) :: ds_log st /\
    (forall x, In x (ds_strict st') <-> In x (ds_strict st) \/ (x = c /\ o_strict o = true)).
Proof.
  intros O G A. unfold decorate_factory.
  assert (V : forall ser l, (forall x, In x l -> In x (order c)) -> visit P ser c l (enter c o st) = Some (enter c o st)).
  { intros ser. induction l as [|x l IH]; intros Hl; [reflexivity|]. cbn [visit].
    assert (without_funcs P (enter c o st) x && negb (x =? c) = false) as ->.
    { destruct (String.eqb_spec x c) as [->|Ne]; [apply andb_false_r|]. rewrite andb_true_r.
      unfold without_funcs. destruct (get_class P x); [|reflexivity]. apply negb_false_iff, smem_In. cbn.
      apply A; [|exact Ne]. destruct (proj1 (order_In P order O c x) (Hl x (or_introl eq_refl))) as [d' [G' R]].
      congruence. }
    apply IH. intros y Hy. apply Hl. now right. }
  exists (finish c (enter c o st)). split; [|split].
  - intros n. cbn [wrap]. now rewrite V.
  - cbn. now rewrite String.eqb_refl.
  - intros x. cbn. destruct (o_strict o); simpl; intuition congruence.
Qed.

Module DecoEx.
  (** class A: b: B;  class B: a: Optional[A], cs: list[C], x: int (skipped D);  class C: b: Optional[B] *)
  Definition cA := cls "A" [fld "b" (TClass "B")].
  Definition cB := cls "B" [fld "a" (TOpt (TClass "A")); fld "cs" (TList LList (TClass "C"));
                            with_skip true false false (with_default VNone (fld "d" (TOpt (TClass "D"))))].
  Definition cC := cls "C" [fld "b" (TOpt (TClass "B"))].
  Definition cD := cls "D" [].
  Definition P := prog [cA; cB; cC; cD] [].
  Definition order (c : string) : list string :=
    match get_class P c with Some d => classes_of (iter_types P d) | None => [] end.
  Definition st0 := mkDstate [] [] [] [] [].

  Lemma order_ok : some_order P order.
  Proof. intros c. unfold order. destruct (get_class P c); [apply Permutation_refl|reflexivity]. Qed.
  Lemma known : classes_known P.
  Proof.
    intros c d x G R. pose proof (get_class_self _ _ _ G) as G'.
    apply (proj1 (C31_iter_types P d G')) in R.
    apply find_class_id in G as [_ G]. simpl in G.
    repeat (destruct G as [<-|G]; [vm_compute in R; repeat (destruct R as [<-|R]; [vm_compute; eauto|]); contradiction|]).
    contradiction.
  Qed.

  Example C31_iter_types_ex : classes_of (iter_types P cA) = ["C"; "B"; "A"] /\ get_class P (c_id cA) = Some cA.
  Proof. vm_compute. split; reflexivity. Qed.
  Example C31_decorate_ex :
    decorate P order 5 "A" (mkDopt true false) st0 =
      Some (mkDstate ["A"; "C"; "B"] [] [("B", false); ("C", false); ("A", true)] ["B"; "C"]
                     [("A", true); ("C", false); ("B", false)]) /\
    exists st' new,
      (forall n, List.length (p_classes P) < n -> decorate P order n "A" (mkDopt true false) st0 = Some st') /\
      ds_stack st' = [] /\
      ds_log st' = ("A", true) :: new ++ [] /\
      NoDup ("A" :: map fst new) /\
      (forall x, In x (map fst new) <-> x <> "A" /\ reach P cA (TClass x) /\ ~ False) /\
      (forall x b, In (x, b) new -> b = false) /\
      (forall x, In x (ds_funcs st') <-> reach P cA (TClass x) \/ False).
  Proof.
    split; [vm_compute; reflexivity|].
    exact (C31_decorate_partial P order "A" cA (mkDopt true false) st0 order_ok known eq_refl eq_refl).
  Qed.
  Example C48_call_ex := C48_call_partial P order "A" cA (mkDopt true false) st0 order_ok known eq_refl eq_refl.
  (** C decorated after everything else *)
  Example C48_factory_ex : exists st',
    (forall n, decorate_factory P order (S n) "C" (mkDopt true false) (mkDstate ["A"; "B"] [] [] [] []) = Some st') /\
    ds_log st' = [("C", true)] /\
    (forall x, In x (ds_strict st') <-> False \/ (x = "C" /\ false = true)).
  Proof.
    apply (C48_factory_partial P order "C" cC (mkDopt true false) (mkDstate ["A"; "B"] [] [] [] []) order_ok eq_refl).
    intros x R N. apply (proj1 (C31_iter_types P cC eq_refl)) in R. vm_compute in R.
    simpl. intuition congruence.
  Qed.
End DecoEx.

(** C31/C48: with @serialize(...) the class itself is generated twice when an undecorated class
    refers back to it, and scope.transparent is lost: its functions are generated for
    transparent=False although it was decorated with transparent=True; and the class is made
    strict although it was decorated with type_check=disabled. *)
Theorem C48_factory_refuted : exists P order c d o st',
  some_order P order /\ classes_known P /\ get_class P c = Some d /\
  decorate_factory P order (S (class_fuel P)) c o (mkDstate [] [] [] [] []) = Some st' /\
  o_transparent o = true /\ slookup c (ds_log st') = Some false /\
  o_strict o = false /\ In c (ds_strict st').
Proof.
  exists DecoEx.P, DecoEx.order, "A", DecoEx.cA, (mkDopt true false).
  eexists. split; [exact DecoEx.order_ok|]. split; [exact DecoEx.known|]. split; [reflexivity|].
  split; [vm_compute; reflexivity|]. vm_compute. intuition.
Qed.
Theorem C31_factory_refuted : exists P order c d o st',
  some_order P order /\ classes_known P /\ get_class P c = Some d /\
  decorate_factory P order (S (class_fuel P)) c o (mkDstate [] [] [] [] []) = Some st' /\
  ~ NoDup (map fst (ds_log st')).
Proof.
  exists DecoEx.P, DecoEx.order, "A", DecoEx.cA, (mkDopt true false).
  eexists. split; [exact DecoEx.order_ok|]. split; [exact DecoEx.known|]. split; [reflexivity|].
  split; [vm_compute; reflexivity|]. vm_compute. intros H.
  repeat match goal with H : NoDup (_ :: _) |- _ => inversion H; subst; clear H end.
  repeat match goal with H : ~ In _ _ |- _ => simpl in H end. tauto.
Qed.

Print Assumptions C31_iter_types.
Print Assumptions C31_decorate_partial.
Print Assumptions C31_factory_refuted.
Print Assumptions C48_call_partial.
Print Assumptions C48_factory_partial.
Print Assumptions C48_factory_refuted.
