(** Serialization ends: C59. *)
From Coq Require Import String Ascii List NArith ZArith Bool Lia Relations.
From Verif Require Import Base PyVal PyType Program Compat Syntax SeRender DeRender Eval Facts Mono Ex Spec Cover.
From Verif Require SeRT.
Import ListNotations.
Open Scope string_scope.
Open Scope list_scope.

(** * Computations that reach a result *)

(** With enough nested calls allowed, the outcome is there and stays the same. *)
Definition settles {A} (m : nat -> res A) : Prop := exists r, r <> NoFuel /\ ev (fun n => m n = r).

Lemma set_ret {A} (r : res A) : r <> NoFuel -> settles (fun _ => r).
Proof. intros H. exists r. split; [exact H|]. now apply ev_always. Qed.
Lemma set_ext {A} (m m' : nat -> res A) : settles m -> (forall n, m n = m' n) -> settles m'.
Proof. intros (r & H & E) X. exists r. split; [exact H|]. eapply ev_mono; [exact E|]. cbv beta. intros n <-. now rewrite X. Qed.
Lemma set_bind {A B} (m : nat -> res A) (k : A -> nat -> res B) :
  settles m -> (forall a, ev (fun n => m n = Ok a) -> settles (k a)) -> settles (fun n => bind (m n) (fun a => k a n)).
Proof.
  intros (r & H & E) K. destruct r as [a|e|]; [|exists (Raise e)|easy].
  - destruct (K a E) as (r & H' & E'). exists r. split; [exact H'|]. eapply ev_mono; [exact (ev_and _ _ E E')|]. cbv beta. intros n [-> <-]. reflexivity.
  - split; [discriminate|]. eapply ev_mono; [exact E|]. cbv beta. intros n ->. reflexivity.
Qed.
Lemma set_bind_pure {A B} (r : res A) (k : A -> nat -> res B) :
  r <> NoFuel -> (forall a, r = Ok a -> settles (k a)) -> settles (fun n => bind r (fun a => k a n)).
Proof. intros H K. destruct r as [a|e|]; cbn [bind]; [now apply K|now apply set_ret|easy]. Qed.
Lemma set_catch {A} (m : nat -> res A) (h : exn -> nat -> res A) :
  settles m -> (forall e, settles (h e)) -> settles (fun n => catch (m n) (fun e => h e n)).
Proof.
  intros (r & H & E) K. destruct r as [a|e|]; [exists (Ok a)| |easy].
  - split; [discriminate|]. eapply ev_mono; [exact E|]. cbv beta. intros n ->. reflexivity.
  - destruct (K e) as (r & H' & E'). exists r. split; [exact H'|]. eapply ev_mono; [exact (ev_and _ _ E E')|]. cbv beta. intros n [-> <-]. reflexivity.
Qed.
Lemma set_mapM {A B} (f : nat -> A -> res B) l : (forall x, In x l -> settles (fun n => f n x)) -> settles (fun n => mapM (f n) l).
Proof.
  induction l as [|x l IH]; intros H; cbn [mapM]; [now apply set_ret|].
  apply set_bind; [apply H; now left|]. intros a _. apply set_bind; [apply IH; intros; apply H; now right|]. intros b _. now apply set_ret.
Qed.
Lemma set_foldM {A S} (f : nat -> S -> A -> res S) l : (forall x s, In x l -> settles (fun n => f n s x)) -> forall s, settles (fun n => foldM (f n) l s).
Proof.
  induction l as [|x l IH]; intros H s; cbn [foldM]; [now apply set_ret|].
  apply set_bind; [apply H; now left|]. intros a _. apply IH. intros; apply H; now right.
Qed.
Lemma fin_bind {A B} (m : res A) (k : A -> res B) : m <> NoFuel -> (forall a, m = Ok a -> k a <> NoFuel) -> bind m k <> NoFuel.
Proof. destruct m; cbn [bind]; auto; discriminate. Qed.
Lemma fin_mapM {A B} (f : A -> res B) l : (forall x, In x l -> f x <> NoFuel) -> mapM f l <> NoFuel.
Proof.
  induction l as [|x l IH]; intros H; cbn [mapM]; [discriminate|]. apply fin_bind; [apply H; now left|]. intros a _.
  apply fin_bind; [apply IH; intros; apply H; now right|]. discriminate.
Qed.
Lemma fin_foldM {A S} (f : S -> A -> res S) l : (forall x s, In x l -> f s x <> NoFuel) -> forall s, foldM f l s <> NoFuel.
Proof.
  induction l as [|x l IH]; intros H s; cbn [foldM]; [discriminate|]. apply fin_bind; [apply H; now left|]. intros a _.
  apply IH. intros; apply H; now right.
Qed.
Lemma fin_of_option {A} e (o : option A) : of_option e o <> NoFuel.
Proof. destruct o; discriminate. Qed.
Lemma fin_catch {A} (m : res A) h : m <> NoFuel -> (forall e, h e <> NoFuel) -> catch m h <> NoFuel.
Proof. destruct m; cbn [catch]; auto. Qed.

Section End.
  Variables (P : program) (W : world) (K : list (tagging * pytype)).
  Notation run := (run P W K).

  Lemma set_run q : settles (fun n => step P W K (run n) q) -> settles (fun n => run n q).
  Proof.
    intros (r & H & E). exists r. split; [exact H|]. eapply ev_mono; [exact (ev_S _ E)|]. cbv beta. intros [|n] X; [contradiction|]. exact X.
  Qed.

  (** * What has to be assumed *)

  (** The code of the user returns or raises. *)
  Definition total {A B} (f : A -> res B) : Prop := forall a, f a <> NoFuel.
  Record total_class (d : classdef) : Prop := {
    tot_serializer : forall g t, c_serializer d = Some g -> total (g t);
    tot_class_ser : forall s, c_class_ser d = Some s -> total (cs_fn s);
    tot_field : forall f g, In f (c_fields d) -> f_serializer f = Some (FFun g) -> total g;
    tot_skip : forall f p, In f (c_fields d) -> f_skip_if f = Some p -> total p;
    tot_factory : forall f r, In f (c_fields d) -> f_default f = Some (DFact r) -> r <> NoFuel
  }.
  Definition total_code : Prop :=
    (forall k, total (w_ctor W k)) /\ (forall s, In s (p_sers P) -> total (cs_fn s)) /\
    (forall c d, get_class P c = Some d -> total_class d).

  (** The values of an enum's members are members of enums defined before it, if at all. *)
  Definition enums_ordered : Prop := exists rank : string -> nat,
    (forall c, rank c <= List.length (p_enums P)) /\
    (forall c m c' m', enum_member P c m = Some (VEnum c' m') -> rank c' < rank c).

  (** Types inside a type *)
  Inductive inside (u t : pytype) : Prop :=
  | in_sub : sub_ty u t -> inside u t
  | in_var a : sub_ty (TClassVar a) t -> inside u a -> inside u t.
  (** The classes whose fields become entries of a class: itself and what is flattened into it *)
  Inductive spliced (d : classdef) : classdef -> Prop :=
  | sp_own : spliced d d
  | sp_flat d' f c d1 : spliced d d' -> In f (c_fields d') -> f_flatten f = true ->
      f_type f = TClass c \/ opt_arg (f_type f) = Some (TClass c) -> get_class P c = Some d1 -> spliced d d1.
  (** The annotations that the serializer of a class is made of *)
  Definition annotation (d : classdef) (t : pytype) : Prop := exists d', spliced d d' /\
    ((exists f, In f (c_fields d') /\ f_type f = t) \/ (exists n a v, In (n, a, v) (c_class_vars d') /\ t = TClassVar a)).
  Definition refers (d : classdef) (l : list pytype) : Prop :=
    exists t, (reach P d t \/ annotation d t) /\ inside (TUnion l) t.
  (** The functions for the unions that a class refers to are not taken for those of other unions (see C37). *)
  Definition unions_apart (d : classdef) : Prop := forall u l, reach P d (TUnion u) -> refers d l ->
    union_func_name P "union_se" u = union_func_name P "union_se" l -> u = l.

  (** The defaults that fields are compared with to leave them out *)
  Definition compared (d : classdef) (x : pyval) : Prop := exists d' f, spliced d d' /\ In f (c_fields d') /\
    flag (f_skip_if_default f) (c_skip_if_default d') = true /\ (f_default f = Some (DVal x) \/ f_default f = Some (DFact (Ok x))).
  (** Names that are looked up in objects *)
  Definition read_name (n : string) : Prop := exists c d, get_class P c = Some d /\
    (c_ser_class_var d = true \/ exists f, In f (c_fields d) /\ f_name f = n).

  (** What serializing a value leads to: its parts, the class variables of its class and defaults it is compared with *)
  Inductive next : pyval -> pyval -> Prop :=
  | nx_elem k l x : In x l -> next x (VSeq k l)
  | nx_key k l a b : In (a, b) l -> next a (VMap k l)
  | nx_val k l a b : In (a, b) l -> next b (VMap k l)
  | nx_attr c l a x : In (a, x) l -> next x (VObj c l)
  | nx_var c l d n t x : get_class P c = Some d -> In (n, t, x) (c_class_vars d) -> read_name n -> next x (VObj c l)
  | nx_default c l d c' l' : get_class P c = Some d -> compared d (VObj c' l') -> next (VObj c' l') (VObj c l).

  (** * Plain operations return or raise *)
  Hypothesis TC : total_code.
  Hypothesis EO : enums_ordered.

  Lemma fin_resolve g t : resolve P g t <> NoFuel.
  Proof.
    induction t using pytype_ind'; cbn [resolve]; try discriminate; try (unfold lookup_name; destruct (slookup _ _); discriminate);
      repeat first [ apply fin_bind; [assumption|intros ? _] | discriminate ].
    - apply fin_bind; [|discriminate]. apply fin_mapM. intros. rewrite Forall_forall in H. auto.
    - destruct l; [discriminate|]. apply fin_bind; [|discriminate]. apply fin_mapM. intros. rewrite Forall_forall in H. auto.
    - destruct b; discriminate.
    - destruct (existsb _ l); discriminate.
  Qed.
  Lemma fin_getattr v a : getattr P v a <> NoFuel.
  Proof. destruct v; cbn [getattr]; try discriminate. destruct (slookup a l); [discriminate|]. destruct (get_class P c); [|discriminate]. destruct (find _ _); discriminate. Qed.
  Lemma fin_factory f : factory_value f <> NoFuel.
  Proof. unfold factory_value. repeat (destruct (String.eqb _ _); [discriminate|]). discriminate. Qed.
  Lemma fin_getidx v n : getidx P v n <> NoFuel.
  Proof.
    destruct v; cbn [getidx]; try discriminate; try (destruct (scal_of P _) as [[]|]; try discriminate; apply fin_of_option).
    - destruct k; try discriminate; try apply fin_of_option; destruct (scal_of P _) as [[]|]; try discriminate; apply fin_of_option.
    - destruct (dget _ _ _); [discriminate|]. destruct k; try discriminate. apply fin_factory.
  Qed.
  Lemma fin_getitem v k : getitem P v k <> NoFuel.
  Proof. destruct v; cbn [getitem]; try discriminate. destruct (dget _ _ _); [discriminate|]. destruct k0; try discriminate. apply fin_factory. Qed.
  Lemma fin_iter v : iter P v <> NoFuel.
  Proof. destruct v; cbn [iter]; try discriminate; destruct (scal_of P _) as [[]|]; discriminate. Qed.
  Lemma fin_items v : items v <> NoFuel.
  Proof. destruct v; discriminate. Qed.
  Lemma fin_mk_seq k l : mk_seq P k l <> NoFuel.
  Proof. unfold mk_seq. destruct (is_setkind k); [|discriminate]. destruct (forallb _ _); discriminate. Qed.
  Lemma fin_mk_map l : mk_map P l <> NoFuel.
  Proof. apply fin_foldM. intros x s _. destruct (hashable P (fst x)); discriminate. Qed.
  Lemma fin_mk_counter v : mk_counter P v <> NoFuel.
  Proof.
    destruct v; cbn [mk_counter]; try discriminate; (apply fin_bind; [apply fin_iter|]; intros a _; apply fin_bind; [|discriminate]);
      apply fin_foldM; intros x acc _; (destruct (hashable P x); [|discriminate]); destruct (dget _ _ _) as [[]|]; discriminate.
  Qed.
  Lemma fin_prim_ctor p v : prim_ctor P W p v <> NoFuel.
  Proof.
    destruct TC as (T & _). destruct p; cbn [prim_ctor]; try discriminate.
    - destruct (scal_of P v) as [[]|]; try discriminate; try (apply fin_bind; [|discriminate]); try apply fin_of_option.
      + unfold Z_of_float. destruct f; try discriminate.
      + destruct v; try discriminate; apply T.
    - destruct (scal_of P v) as [[]|]; try discriminate; try (apply fin_bind; [|discriminate]); try apply fin_of_option.
      + unfold float_of_Z. destruct (SpecFloat.binary_normalize _ _ _ _ _); discriminate.
      + destruct v; try discriminate; apply T.
  Qed.
  Lemma fin_enum_call c v : enum_call P c v <> NoFuel.
  Proof.
    unfold enum_call. destruct (get_enum P c); [|discriminate]. destruct (e_members e); [discriminate|].
    match goal with |- (if ?b then _ else _) <> _ => destruct b end; [discriminate|]. destruct (find _ _) as [[]|]; discriminate.
  Qed.
  Lemma fin_call_ctor t v : call_ctor P W t v <> NoFuel.
  Proof.
    destruct TC as (T & _). destruct t; cbn [call_ctor]; try discriminate; try apply T; try apply fin_enum_call; try apply fin_prim_ctor.
    apply fin_bind; [apply fin_prim_ctor|discriminate].
  Qed.
  Lemma fin_coerce c f t v : coerce_object P W c f t v <> NoFuel.
  Proof. unfold coerce_object. destruct v; try discriminate; (apply fin_catch; [apply fin_call_ctor|discriminate]). Qed.
  Lemma fin_enum_value c v : enum_value P c v <> NoFuel.
  Proof.
    destruct EO as (rank & R1 & R2).
    assert (U : forall n c m, rank c <= n -> enum_unwrap P (S n) (VEnum c m) <> NoFuel).
    { induction n as [|n IH]; intros c' m L; cbn [enum_unwrap].
      - destruct (enum_member P c' m) as [x|] eqn:E; [|discriminate]. cbn [of_option bind]. destruct x; try discriminate. apply R2 in E. lia.
      - destruct (enum_member P c' m) as [x|] eqn:E; [|discriminate]. cbn [of_option bind]. destruct x; try discriminate. apply R2 in E. apply IH. lia. }
    destruct v; cbn [enum_value]; try (apply fin_bind; [apply fin_enum_call|intros [] _; try discriminate; apply fin_of_option]).
    apply U. apply R1.
  Qed.

  (** * The generated expressions *)

  (** What generated code can take out of a value *)
  Inductive emits : pyval -> pyval -> Prop :=
  | em_iter v l x : iter P v = Ok l -> In x l -> emits x v
  | em_key v l x y : items v = Ok l -> In (x, y) l -> emits x v
  | em_val v l x y : items v = Ok l -> In (x, y) l -> emits y v
  | em_idx v n x : getidx P v n = Ok x -> emits x v
  | em_attr v a x : read_name a -> getattr P v a = Ok x -> emits x v.
  Definition below := clos_refl_trans pyval emits.

  Definition okc (d : classdef) : Prop := total_class d /\ unions_apart d.
  (** Calls on a value that do not depend on an annotation end, ... *)
  Definition Base (v : pyval) : Prop :=
    (forall named ro rc sk tc, tc = None \/ (exists tg, tc = Some (tg, TAny)) -> settles (fun n => run n (QToObj v named ro rc sk tc))) /\
    (forall c l d named ro rc sk, v = VObj c l -> get_class P c = Some d -> settles (fun n => run n (QSe d v named ro rc sk))).
  (** ... and the function for the union [l] ends on it. *)
  Definition Un (l : list pytype) (v : pyval) : Prop :=
    forall d f ro rc sk, okc d -> find_union P d "union_se" f = Some l -> settles (fun n => run n (QUnionSe d f v ro rc sk)).
  Definition Good (t : pytype) (v : pyval) : Prop := forall y, below y v -> Base y /\ forall l, inside (TUnion l) t -> Un l y.
  Lemma Good_step t a v x : emits x v -> (forall l, inside (TUnion l) a -> inside (TUnion l) t) -> Good t v -> Good a x.
  Proof.
    intros E I G y Y. destruct (G y) as [G1 G2]; [|split; auto]. apply rt_trans with x; [exact Y|]. now apply rt_step.
  Qed.
  Lemma Good_sub t a v : (forall l, inside (TUnion l) a -> inside (TUnion l) t) -> Good t v -> Good a v.
  Proof. intros I G y Y. destruct (G y Y) as [G1 G2]. split; auto. Qed.
  Lemma inside_sub u a t : sub_ty a t -> inside u a -> inside u t.
  Proof.
    intros S [H|b H1 H2]; [apply in_sub|apply in_var with b; [|exact H2]]; eapply sub_ty_trans; eauto.
  Qed.
  Lemma found d f l : find_union P d "union_se" f = Some l -> reach P d (TUnion l) /\ union_func_name P "union_se" l = f.
  Proof.
    unfold find_union. destruct (find _ _) as [u|] eqn:F; [|discriminate]. intros E. injection E as E.
    apply find_some in F as [F1 F2]. apply in_rev in F1.
    pose proof (iter_unions_sound P d) as S. rewrite Forall_forall in S. specialize (S u F1).
    pose proof (iter_unions_shape P d) as Sh. rewrite Forall_forall in Sh. destruct (Sh u F1) as [l' ->]. cbn [union_args] in *. subst l'.
    split; [exact S|]. now apply String.eqb_eq.
  Qed.
  Section Ctx.
    Variables (d : classdef) (cx : ctx).
    Hypothesis XC : x_cls cx = d.
    Hypothesis OK : okc d.
    Notation E rho e := (fun n => eval P W (run n) cx rho e).

    Lemma fin_cls_ser k v : (s <- of_option XIndex (nth_opt (class_sers P (c_class_ser (x_cls cx))) k) ;; cs_fn s v) <> NoFuel.
    Proof.
      rewrite XC. apply fin_bind; [apply fin_of_option|]. intros s Hs. destruct (nth_opt _ k) eqn:E; [|discriminate]. injection Hs as ->.
      apply nth_opt_In in E. unfold class_sers in E. apply in_app_or in E as [E|E]; [now apply TC|].
      destruct (c_class_ser d) eqn:CS; [|destruct E]. destruct E as [<-|[]]. now apply (tot_class_ser d (proj1 OK)).
    Qed.
    Lemma set_cls_ser k rho var r : (forall n, E rho var n = r) -> r <> NoFuel -> settles (E rho (EClsSer k var)).
    Proof.
      intros V F. cbn [eval]. apply set_ext with (fun _ => bind r (fun v => s <- of_option XIndex (nth_opt (class_sers P (c_class_ser (x_cls cx))) k) ;; cs_fn s v)).
      - apply set_ret. apply fin_bind; [exact F|]. intros a _. apply fin_cls_ser.
      - intros n. now rewrite V.
    Qed.
    Lemma set_legacy t rho var e r : (forall n, E rho var n = r) -> r <> NoFuel -> settles (E rho e) -> settles (E rho (ELegacySe t var e)).
    Proof.
      intros V F S. cbn [eval]. apply set_bind_pure; [apply fin_resolve|]. intros t' _.
      apply set_bind; [eapply set_ext; [now apply (set_ret r)|]; intros; symmetry; apply V|]. intros a _.
      rewrite XC. destruct (c_serializer d) as [g|] eqn:CS; [|now apply set_ret].
      pose proof (tot_serializer d (proj1 OK) g t' CS a) as T. destruct (g t' a) as [x|ex|]; [now apply set_ret| |easy].
      destruct ex; try (now apply set_ret). exact S.
    Qed.
    Lemma set_wrap cfg hs av t rho var e r : (forall n, E rho var n = r) -> r <> NoFuel -> settles (E rho e) -> settles (E rho (legacy_wrap cfg hs av t var e)).
    Proof. intros V F S. unfold legacy_wrap. destruct (_ && _); [|exact S]. eapply set_legacy; eauto. Qed.

    Lemma set_var rho var r : (forall n, E rho var n = r) -> r <> NoFuel -> settles (E rho var).
    Proof. intros V F. eapply set_ext; [now apply (set_ret r)|]. intros n. now rewrite V. Qed.
    Lemma set_sefn rho var r nm : (forall n, E rho var n = r) -> r <> NoFuel -> (forall v, r = Ok v -> Base v) -> settles (E rho (ESeFn var nm)).
    Proof.
      intros V F B. cbn [eval]. apply set_bind; [eapply set_var; eauto|]. intros v EV.
      assert (RV : r = Ok v) by (destruct EV as [N EV]; rewrite <- (V N); now apply EV).
      destruct v; try (now apply set_ret). apply set_bind_pure; [apply fin_of_option|]. intros d' GD.
      destruct (get_class P c) as [d''|] eqn:GC; [|discriminate]. injection GD as ->. destruct (B _ RV) as [_ B2]. eapply B2; eauto.
    Qed.
    Lemma set_class rho var r cfg hs c : (forall n, E rho var n = r) -> r <> NoFuel -> (forall v, r = Ok v -> Base v) -> settles (E rho (se_class P cfg hs c var)).
    Proof.
      intros V F B. unfold se_class. destruct (find_ser P (r_class_ser cfg) (TClass c)) as [k|], hs;
        try (eapply set_wrap; eauto; eapply set_sefn; eauto; fail). eapply set_cls_ser; eauto.
    Qed.
    Lemma set_union rho var r l : (forall n, E rho var n = r) -> r <> NoFuel -> refers d l -> (forall v, r = Ok v -> Un l v) ->
      settles (E rho (EUnionSe (union_func_name P "union_se" l) var)).
    Proof.
      intros V F M U. cbn [eval]. apply set_bind; [eapply set_var; eauto|]. intros v EV.
      assert (RV : r = Ok v) by (destruct EV as [N EV]; rewrite <- (V N); now apply EV). rewrite XC.
      destruct (find_union P d "union_se" (union_func_name P "union_se" l)) as [u|] eqn:FU.
      - assert (u = l).
        { destruct (found _ _ _ FU) as [R N]. exact (proj2 OK u l R M N). }
        subst u. now apply U.
      - apply set_run. cbn [step]. rewrite FU. cbn [of_option bind]. now apply (set_ret (Raise XKey)).
    Qed.

    Lemma set_if rho c a b : settles (E rho c) -> settles (E rho a) -> settles (E rho b) -> settles (E rho (EIf c a b)).
    Proof. intros C A B. cbn [eval]. apply set_bind; [exact C|]. intros v _. destruct (truthy _ v); assumption. Qed.
    Lemma set_builtin rho b var : settles (E rho var) -> settles (E rho (EBuiltin b var)).
    Proof.
      intros V. cbn [eval]. apply set_bind; [exact V|]. intros v _. apply set_ret.
      destruct b; try (apply fin_bind; [apply fin_iter|]; intros; try discriminate; apply fin_mk_seq).
      - destruct v; discriminate.
      - apply fin_mk_counter.
    Qed.

    (** Types whose values are converted without calls *)
    Definition callless (t : pytype) : bool := match t with TStr _ | TDate _ => true | _ => false end.

    Lemma se_settles t : forall cfg hs var e rho r, se_ty P cfg hs var t = Ok e -> (forall n, E rho var n = r) -> r <> NoFuel ->
      (forall l, inside (TUnion l) t -> refers d l) -> (callless t = true \/ forall v, r = Ok v -> Good t v) -> settles (E rho e).
    Proof.
      assert (GB : forall t v, Good t v -> Base v) by (intros t0 v G; apply (G v); apply rt_refl).
      assert (LOOP : forall k a cfg hs var e rho r t0 (S : sub_ty a t0) (IHt : forall cfg hs var e rho r, se_ty P cfg hs var a = Ok e -> (forall n, E rho var n = r) -> r <> NoFuel ->
          (forall l, inside (TUnion l) a -> refers d l) -> (callless a = true \/ forall v, r = Ok v -> Good a v) -> settles (E rho e)),
          se_ty P cfg hs (EVar "v") a = Ok e -> (forall n, E rho var n = r) -> r <> NoFuel -> (forall l, inside (TUnion l) t0 -> refers d l) ->
          (forall v, r = Ok v -> Good t0 v) -> settles (E rho (EComp k e var))).
      { intros k a cfg hs var e rho r t0 S IHt H V F M G. cbn [eval]. apply set_bind; [eapply set_var; eauto|]. intros v EV.
        assert (RV : r = Ok v) by (destruct EV as [N EV]; rewrite <- (V N); now apply EV).
        apply set_bind_pure; [apply fin_iter|]. intros l IT. apply set_bind; [|intros; apply set_ret, fin_mk_seq].
        apply set_mapM. intros x Hx. apply (IHt cfg hs (EVar "v") e (("v", x) :: rho) (Ok x) H); [reflexivity|discriminate|..].
        - intros l' I. apply M. eapply inside_sub; eauto.
        - right. intros v' E'. injection E' as <-. eapply Good_step; [eapply em_iter; eauto| |exact (G v RV)]. intros. eapply inside_sub; eauto. }
      assert (MLOOP : forall ek ex var rho r, (forall n, E rho var n = r) -> r <> NoFuel ->
          (forall v l a b, r = Ok v -> items v = Ok l -> In (a, b) l ->
             settles (E (("k", a) :: ("v", b) :: rho) ek) /\ settles (E (("k", a) :: ("v", b) :: rho) ex)) -> settles (E rho (EMapComp ek ex var))).
      { intros ek ex var rho r V F X. cbn [eval]. apply set_bind; [eapply set_var; eauto|]. intros v EV.
        assert (RV : r = Ok v) by (destruct EV as [N EV]; rewrite <- (V N); now apply EV).
        apply set_bind_pure; [apply fin_items|]. intros l IT. apply set_bind.
        - apply set_mapM. intros [a b] Hx. destruct (X v l a b RV IT Hx) as [X1 X2]. cbv zeta. cbn [fst snd].
          apply set_bind; [exact X1|]. intros k' _. apply set_bind; [exact X2|]. intros x' _. apply set_ret. destruct (hashable P k'); discriminate.
        - intros l' _. apply set_bind_pure; [apply fin_mk_map|]. intros m _. now apply set_ret. }
      induction t using pytype_ind'; intros cfg hs var e rho r H0 V F M G; cbn [se_ty] in H0;
        (match type of H0 with (match ?x with _ => _ end) = _ => destruct x as [fk|] eqn:FS end;
         [destruct hs; [|injection H0 as <-; eapply set_cls_ser; eauto]|]);
        try (destruct G as [G|G]; [discriminate G|]); try discriminate H0.
      all: try (match type of H0 with bind ?m _ = _ =>
             let C := fresh "C" in destruct m as [e0|e0|] eqn:C; [injection H0 as <-|discriminate H0..]; eapply set_wrap; [exact V|exact F|]; rename C into H0 end).
      (* primitives *)
      all: try (solve [destruct (r_suppress cfg); injection H0 as <-; [eapply set_var; eauto|];
        cbn [eval]; apply set_bind_pure; [apply fin_resolve|]; intros t' _; apply set_bind; [eapply set_var; eauto|]; intros v _; apply set_ret, fin_coerce]).
      all: try (solve [injection H0 as <-; cbn [eval]; now apply set_ret]).
      all: try (solve [injection H0 as <-; eapply set_var; eauto]).
      all: try (solve [injection H0 as <-; eapply set_class; eauto; intros v RV; apply GB; auto]).
      (* to_obj *)
      all: try (solve [injection H0 as <-; cbn [eval]; apply set_bind; [eapply set_var; eauto|]; intros v EV;
        (assert (RV : r = Ok v) by (destruct EV as [N EV]; rewrite <- (V N); now apply EV)); apply (GB _ _ (G v RV)); right; now eexists]).
      (* containers *)
      all: try (solve [inv_bind H0; injection H0 as <-; eapply LOOP; eauto; constructor; constructor]).
      all: try (solve [injection H0 as <-; apply set_if; [cbn [eval]; now apply set_ret|eapply set_var; eauto|cbn [eval]; apply set_bind; [eapply set_var; eauto|];
        intros v _; apply set_ret; destruct v; discriminate]]).
      all: try (solve [injection H0 as <-; eapply set_wrap; [exact V|exact F|]; eapply set_class; eauto; intros v RV; apply (GB _ _ (G v RV))]).
      all: try (solve [injection H0 as <-; cbn [eval]; apply set_bind_pure; [apply fin_resolve|]; intros t' _; apply set_bind; [eapply set_var; eauto|]; intros v _;
        apply set_ret; destruct t'; try discriminate; apply fin_enum_value]).
      all: try (solve [destruct b as [[]|[]|[]| | |]; try discriminate H0; injection H0 as <-; try (apply set_if; [cbn [eval]; now apply set_ret|..]); try apply set_builtin; eapply set_var; eauto]).
      all: try (solve [eapply IHt; eauto; [intros l I; apply M; (eapply inside_sub; [|exact I]) + (eapply in_var; [|exact I]); repeat constructor|
        right; intros v RV; eapply Good_sub; [|exact (G v RV)]; intros l I; (eapply inside_sub; [|exact I]) + (eapply in_var; [|exact I]); repeat constructor]]).
      all: try (solve [inv_bind H0; injection H0 as <-; apply set_if; [cbn [eval]; now apply set_ret|eapply LOOP; eauto; constructor; constructor..]]).
      (* unions *)
      1,2: rewrite Forall_forall in H; destruct (is_opt (TUnion l));
        [destruct l as [|a l]; [discriminate H0|]; inv_bind H0; injection H0 as <-; apply set_if;
          [cbn [eval]; apply set_bind; [eapply set_var; eauto|]; intros v _; now apply set_ret| |cbn [eval]; now apply set_ret];
          eapply (H a (or_introl eq_refl)); eauto; [intros l' I; apply M; eapply inside_sub; [|exact I]; econstructor; [now left|constructor]|
            right; intros v RV; eapply Good_sub; [|exact (G v RV)]; intros l' I; eapply inside_sub; [|exact I]; econstructor; [now left|constructor]]
        |injection H0 as <-; eapply set_union; eauto; [apply M; apply in_sub; constructor|intros v RV; apply (G v RV); [apply rt_refl|apply in_sub; constructor]]].
      (* counters and mappings *)
      1,2: inv_bind H0; injection H0 as <-; eapply MLOOP; [exact V|exact F|]; intros v l p q RV IT Hx; split; [|cbn [eval]; now apply (set_ret (Ok q))];
        apply (IHt _ _ _ _ (("k", p) :: ("v", q) :: rho) (Ok p) Hb); [reflexivity|discriminate|intros l' I; apply M; eapply inside_sub; [|exact I]; repeat constructor|];
        right; intros v' E'; injection E' as <-; eapply Good_step; [eapply em_key; eauto| |exact (G v RV)]; intros l' I; eapply inside_sub; [|exact I]; repeat constructor.
      1,2: inv_bind H0; inv_bind H0; injection H0 as <-; eapply MLOOP; [exact V|exact F|]; intros v l p q RV IT Hx; split;
        [apply (IHt1 _ _ _ _ (("k", p) :: ("v", q) :: rho) (Ok p) Hb)|apply (IHt2 _ _ _ _ (("k", p) :: ("v", q) :: rho) (Ok q) Hb0)];
        [reflexivity|discriminate|intros l' I; apply M; eapply inside_sub; [apply sub_dict_k, sub_refl|exact I]|
         right; intros v' E'; injection E' as <-; eapply Good_step; [eapply em_key; eauto| |exact (G v RV)]; intros l' I; eapply inside_sub; [apply sub_dict_k, sub_refl|exact I]|
         reflexivity|discriminate|intros l' I; apply M; eapply inside_sub; [apply sub_dict_v, sub_refl|exact I]|
         right; intros v' E'; injection E' as <-; eapply Good_step; [eapply em_val; eauto| |exact (G v RV)]; intros l' I; eapply inside_sub; [apply sub_dict_v, sub_refl|exact I]].
      (* tuples *)
      1,2: match type of H0 with match _ with [] => _ | _ :: _ => ?X end = ?Y => assert (H1 : X = Y) by (destruct l; [discriminate H0|exact H0]) end;
        clear H0; rename H1 into H0; inv_bind H0; injection H0 as <-; cbn [eval];
        (apply set_bind; [|intros; now apply set_ret]); apply set_mapM; rewrite Forall_forall in H;
        match type of Hb with _ = Ok ?q => rename q into es end;
        assert (T : forall hz l1 es n, (forall x, In x l1 -> In x l) -> (fix go n l := match l with
                   | [] => Ok []
                   | a :: r => e <- se_ty P cfg hz (EIdx var n) a ;; es <- go (S n) r ;; Ok (e :: es)
                   end) n l1 = Ok es -> forall x, In x es -> settles (E rho x));
          [|exact (T _ l es 0 (fun x I => I) Hb)]; clear Hb es;
        (intros hz; induction l1 as [|a l1 IHl]; intros es m L1 Hb; [injection Hb as <-; intros x []|]; inv_bind Hb; inv_bind Hb; injection Hb as <-; intros x [<-|Hx];
          [|eapply IHl; eauto; intros; apply L1; now right];
          eapply (H a (L1 a (or_introl eq_refl)) _ _ _ _ rho (v <- r ;; getidx P v m)); [eassumption|intros k0; cbn [eval]; now rewrite V|apply fin_bind; [exact F|intros; apply fin_getidx]|..];
          [intros l' I; apply M; eapply inside_sub; [|exact I]; econstructor; [apply L1; now left|constructor]|];
          right; intros v' E'; apply bind_Ok in E' as (v0 & RV & E'); eapply Good_step; [eapply em_idx; eauto| |exact (G v0 RV)];
          intros l' I; eapply inside_sub; [|exact I]; econstructor; [apply L1; now left|constructor]).
    Qed.

    (** * Fields *)
    Definition GG (v : pyval) : Prop := forall t, Good t v.
    Lemma GG_step x v : emits x v -> GG v -> GG x.
    Proof. intros S G t. eapply Good_step; [exact S| |exact (G t)]. auto. Qed.

    Definition good_fn (g : gfun) : Prop :=
      match g with
      | GFun g => total g
      | GSkip (SkUser p) => total p
      | GSkip (SkDefault (Some x)) => compared d x
      | GSkip _ => True
      end.
    Hypothesis FN : Forall (fun x => good_fn (snd x)) (x_fns cx).
    Lemma good_lookup nm g : fn_lookup cx nm = Some g -> good_fn g.
    Proof.
      unfold fn_lookup. intros L. apply slookup_In in L. apply in_rev in L. rewrite Forall_forall in FN. exact (FN _ L).
    Qed.

    Lemma spliced_total d' : spliced d d' -> total_class d'.
    Proof. intros [|d1 f c d2 _ _ _ _ G]; [apply OK|]. exact (proj2 (proj2 TC) _ _ G). Qed.

    Lemma sefields_In d' cv fs f s0 : sefields d' cv = Ok fs -> In (f, s0) fs ->
      (In f (c_fields d') /\ field_skip (c_skip_if_default d') (c_skip_if_none d') f = Ok s0) \/ (cv = true /\ exists x, In x (c_class_vars d') /\ f = class_var_field x /\ s0 = None).
    Proof.
      unfold sefields. intros H I. inv_bind H. injection H as <-. apply in_app_or in I as [I|I].
      - left. apply mapM_Ok in Hb. clear -Hb I. induction Hb as [|g y l l' Hy _ IH]; [destruct I|]. destruct I as [->|I].
        + inv_bind Hy. inv_bind Hy. injection Hy as -> ->. split; [now left|exact Hb0].
        + destruct (IH I) as [I1 I2]. split; [now right|exact I2].
      - right. destruct cv; [|destruct I]. apply in_map_iff in I as (x & Hx & I). injection Hx as <- <-. split; [reflexivity|]. exists x. auto.
    Qed.

    Lemma field_settles n : forall cfg f parent es d' rho r, se_field P n cfg f parent = Ok es -> spliced d d' ->
      (In f (c_fields d') \/ exists x, In x (c_class_vars d') /\ f = class_var_field x) ->
      (forall n, E rho parent n = r) -> r <> NoFuel -> (r_class_var cfg = true -> forall a, read_name a) ->
      (forall v x, r = Ok v -> getattr P v (f_name f) = Ok x -> callless (f_type f) = true \/ GG x) ->
      forall e, In e es -> settles (E rho e).
    Proof.
      induction n as [|n IH]; intros cfg f parent es d' rho r H SP FI V F RN G e He.
      all: assert (V' : forall k, E rho (EAttr parent (f_name f)) k = bind r (fun v => getattr P v (f_name f))) by (intros k; cbn [eval]; now rewrite V).
      all: assert (F' : bind r (fun v => getattr P v (f_name f)) <> NoFuel) by (apply fin_bind; [exact F|]; intros; apply fin_getattr).
      all: assert (WR : forall a t l l', legacy_wrap_list cfg (has_some (f_serializer f)) a t (EAttr parent (f_name f)) l = Ok l' -> (forall x, In x l -> settles (E rho x)) -> forall x, In x l' -> settles (E rho x))
        by (unfold legacy_wrap_list; intros a t l l' WL S x Hx; destruct (_ && _); [destruct l as [|y [|z l]]; try discriminate WL; injection WL as <-; destruct Hx as [<-|[]]; eapply set_legacy; eauto; apply S; now left|
             injection WL as <-; auto]).
      all: assert (AN : annotation d (f_type f))
        by (exists d'; split; [exact SP|]; destruct FI as [FI|([[nm a] v] & FI & ->)]; [left; exists f; auto|right; exists nm, a, v; auto]).
      all: assert (PL : forall e', se_ty P cfg (has_some (f_serializer f)) (EAttr parent (f_name f)) (f_type f) = Ok e' -> settles (E rho e'))
        by (intros e' H'; eapply se_settles; eauto; [intros l I; exists (f_type f); auto|];
            destruct (callless (f_type f)) eqn:CL; [now left|right]; intros v E1; apply bind_Ok in E1 as (v0 & R0 & E1); destruct (G _ _ R0 E1) as [G1|G1]; [congruence|apply G1]).
      all: assert (FUN : forall x, settles (E rho (EFn x (EAttr parent (f_name f)))))
        by (intros x; cbn [eval]; destruct (fn_lookup cx x) as [[sk|g]|] eqn:L; [now apply set_ret| |now apply set_ret];
            apply set_bind; [exact (set_var rho (EAttr parent (f_name f)) _ V' F')|]; intros v _; apply set_ret; exact (good_lookup _ _ L v)).
      1: assert (SPL : forall c, f_flatten f = true -> f_type f = TClass c \/ opt_arg (f_type f) = Some (TClass c) ->
          forall es', Raise XRecursion = Ok es' -> forall x, In x es' -> settles (E rho x)) by discriminate.
      2: assert (SPL : forall c, f_flatten f = true -> f_type f = TClass c \/ opt_arg (f_type f) = Some (TClass c) ->
          forall es', match get_class P c with
            | None => Raise XAttr
            | Some d => fs <- sefields d (r_class_var cfg) ;; ess <- mapM (fun fs => se_field P n cfg (fst fs) (EAttr parent (f_name f))) fs ;; Ok (concat ess)
            end = Ok es' -> forall x, In x es' -> settles (E rho x)).
      2: { intros c FL FT es' SE x Hx. destruct (get_class P c) as [d1|] eqn:GC; [|discriminate SE]. inv_bind SE. inv_bind SE. injection SE as <-.
           apply in_concat in Hx as (l & L1 & L2). apply mapM_Ok in Hb0. destruct (Forall2_in_r _ _ _ _ Hb0 L1) as ([g s0] & G1 & G2). cbn [fst] in G2.
           assert (IN := FI).
           assert (FI' : In f (c_fields d')) by (destruct FI as [FI|([[nm a1] v1] & FI & ->)]; [exact FI|discriminate FL]).
           assert (SP' : spliced d d1) by (eapply sp_flat; eauto).
           pose proof (sefields_In _ _ _ _ _ Hb G1) as GI.
           eapply (IH cfg g (EAttr parent (f_name f)) l d1 rho); [exact G2|exact SP'| |exact V'|exact F'|exact RN| |exact L2].
           - destruct GI as [[GI _]|(_ & y & GI & GE & _)]; [now left|right; exists y; auto].
           - intros v y E1 E2. right. apply bind_Ok in E1 as (v0 & R0 & E1). apply GG_step with v.
             + apply em_attr with (f_name g); [|exact E2]. destruct GI as [[GI _]|(CV & _)]; [|now apply RN]. exists c, d1. split; [exact GC|]. right. exists g. auto.
             + destruct (G _ _ R0 E1) as [CL|CL]; [|exact CL]. destruct FT as [FT|FT]; [rewrite FT in CL; discriminate|]. destruct (f_type f); discriminate. }
      all: cbn [se_field] in H.
      all: assert (SER : forall k, settles (E rho (EClsSer k (EAttr parent (f_name f))))) by (intros k; eapply set_cls_ser; eauto).
      all: assert (ONE : forall x, settles (E rho x) -> forall y, In y [x] -> settles (E rho y)) by (intros x X y [<-|[]]; exact X).
      all: destruct (f_flatten f) eqn:FL; [|destruct (find_ser P (r_class_ser cfg) (f_type f)) as [k|], (f_serializer f) as [[|g]|];
        first [injection H as <-; apply (ONE _ (SER _) _ He) | injection H as <-; apply (ONE _ (FUN _) _ He) | inv_bind H; injection H as <-; apply (ONE _ (PL _ Hb) _ He)]].
      all: destruct (find_ser P (r_class_ser cfg) (f_type f)) as [k|], (f_serializer f) as [[|g]|] eqn:FS;
        try (solve [injection H as <-; apply (ONE _ (SER _) _ He)]); try (solve [injection H as <-; apply (ONE _ (FUN _) _ He)]).
      all: destruct (f_type f) as [| | | | |l| | | | | | | | | |c| | | | | | | |] eqn:FT;
        try (solve [cbn [opt_arg] in H; inv_bind H; injection H as <-; apply (ONE _ (PL _ Hb) _ He)]).
      all: try (solve [inv_bind H; eapply WR; [exact H| |exact He]; eapply (SPL c eq_refl (or_introl eq_refl)); eassumption]).
      all: destruct (opt_arg (TUnion l)) as [t'|] eqn:OA; [|inv_bind H; injection H as <-; apply (ONE _ (PL _ Hb) _ He)].
      all: destruct t' as [| | | | | | | | | | | | | | |c| | | | | | | |]; try (solve [inv_bind H; injection H as <-; apply (ONE _ (PL _ Hb) _ He)]).
      all: inv_bind H; (eapply WR; [exact H| |exact He]); clear H He; intros e0 He; cbn [has_some] in Hb.
      all: destruct (find_ser P (r_class_ser cfg) (TClass c)) as [k2|]; try (solve [injection Hb as <-; apply (ONE _ (SER _) _ He)]).
      all: inv_bind Hb; (eapply WR; [exact Hb| |exact He]); eapply (SPL c eq_refl (or_intror eq_refl)); eassumption.
    Qed.

    (** * Bodies *)
    Hypothesis CB : forall c l, compared d (VObj c l) -> Base (VObj c l).
    Lemma skip_settles s0 v : good_fn (GSkip s0) -> settles (fun n => run_skip P (run n) s0 v).
    Proof.
      intros GF. destruct s0 as [p| | |[x|]]; cbn [run_skip]; try (now apply set_ret). apply set_bind; [|intros; now apply set_ret].
      destruct x; try (now apply set_ret). apply set_catch; [|intros; now apply set_ret]. apply (CB _ _ GF). now left.
    Qed.
    Lemma fin_assign ts v m : assign P ts v m <> NoFuel.
    Proof.
      unfold assign. destruct ts as [|t [|t' ts]]; try discriminate. apply fin_bind; [apply fin_iter|]. intros l _. destruct (Nat.eqb _ _); discriminate.
    Qed.
    Lemma sstmt_settles rho st m : (forall e, In e (s_rhs st) -> settles (E rho e)) -> settles (fun n => run_sstmt P W (run n) cx rho m st).
    Proof.
      intros H. unfold run_sstmt. apply set_bind; [apply set_mapM; exact H|]. intros l _.
      assert (X : settles (fun n => match s_skip st with
        | Some nm => match fn_lookup cx nm with
                     | Some (GSkip p) => b <- run_skip P (run n) p (tuple_of l) ;; if (b : bool) then Ok m else assign P (s_targets st) (tuple_of l) m
                     | _ => Raise XName
                     end
        | None => if x_skip cx then match tuple_of l with VNone => Ok m | _ => assign P (s_targets st) (tuple_of l) m end else assign P (s_targets st) (tuple_of l) m
        end)).
      { destruct (s_skip st) as [nm|].
        - destruct (fn_lookup cx nm) as [[p|g]|] eqn:L; try (now apply set_ret). apply set_bind; [apply skip_settles; exact (good_lookup _ _ L)|].
          intros b _. apply set_ret. destruct b; [discriminate|apply fin_assign].
        - apply set_ret. destruct (x_skip cx); [|apply fin_assign]. destruct (tuple_of l); try discriminate; apply fin_assign. }
      cbv zeta. destruct (s_targets st) as [|[k|] [|t' ts]]; try exact X. apply set_ret. destruct (truthy _ _); [|discriminate].
      apply fin_bind; [apply fin_items|discriminate].
    Qed.
    Definition rhs_of (b : sebody) : list (list expr) :=
      match b with SbDict l => map s_rhs l | SbTransparent r => [r] | SbTuple l => l end.
    Lemma body_settles b obj : (forall l e, In l (rhs_of b) -> In e l -> settles (E [("obj", obj)] e)) -> settles (fun n => run_se_body P W (run n) cx b obj).
    Proof.
      intros H. destruct b as [l|r|l]; cbn [run_se_body rhs_of] in *.
      - apply set_bind; [|intros; now apply set_ret]. apply set_foldM. intros st m Hst. apply sstmt_settles. intros e. apply H. now apply in_map.
      - apply set_bind; [|intros; now apply set_ret]. apply set_mapM. intros e. apply H. now left.
      - apply set_bind; [|intros; now apply set_ret]. apply set_mapM. intros es Hes. apply set_mapM. intros e. now apply H.
    Qed.
    Lemma render_rhs named b l : render_se P W d named = Ok b -> In l (rhs_of b) ->
      exists fs f s0, sefields d (c_ser_class_var d) = Ok fs /\ In (f, s0) fs /\ se_field P (class_fuel P) (se_cfg d named) f obj_var = Ok l.
    Proof.
      intros H I. unfold render_se in H. destruct named; [unfold render_to_dict in H|unfold render_to_tuple in H]; inv_bind H; cbv zeta in H;
        (assert (FL : forall x, In x (filter (fun fs => negb (se_skipped (fst fs))) a) -> In x a) by (intros x X; now apply filter_In in X));
        (destruct (c_transparent d);
        [destruct (filter _ a) as [|[f s0] l0] eqn:L; [discriminate H|]; inv_bind H; injection H as <-; destruct I as [<-|[]]; exists a, f, s0; split; [exact Hb|]; split; [apply FL; now left|exact Hb0]|]).
      - inv_bind H. injection H as <-. cbn [rhs_of] in I. apply in_map_iff in I as (st & <- & I). apply mapM_Ok in Hb0.
        destruct (Forall2_in_r _ _ _ _ Hb0 I) as ([f s0] & I1 & I2). inv_bind I2. inv_bind I2. cbn [fst] in *. exists a, f, s0. split; [exact Hb|]. split; [now apply FL|].
        destruct a1; [discriminate I2|]. injection I2 as <-. exact Hb1.
      - inv_bind H. injection H as <-. cbn [rhs_of] in I. apply mapM_Ok in Hb0.
        destruct (Forall2_in_r _ _ _ _ Hb0 I) as ([f s0] & I1 & I2). inv_bind I2. cbn [fst] in *. exists a, f, s0. split; [exact Hb|]. split; [now apply FL|].
        destruct a1; [discriminate I2|]. injection I2 as <-. exact Hb1.
    Qed.
    Lemma unionse_settles arms obj : (forall t e, In (t, e) arms -> settles (E [("obj", obj)] e)) -> settles (fun n => run_union_se P W (run n) cx arms obj).
    Proof.
      induction arms as [|[t e] arms IH]; intros H; cbn [run_union_se]; [now apply set_ret|].
      destruct (is_instance P W obj t); [|apply IH; intros; eapply H; right; eauto]. apply set_bind; [eapply H; now left|]. intros v _. apply set_ret.
      destruct (taggable t); [|discriminate]. destruct (c_tagging (x_cls cx)); try discriminate. destruct v; discriminate.
    Qed.
  End Ctx.

  (** * Code generation returns or raises *)
  Lemma fin_skip_of d f : total_class d -> In f (c_fields d) -> forall a b, field_skip a b f <> NoFuel.
  Proof.
    intros T I a b. unfold field_skip. cbv zeta. apply fin_bind.
    - destruct (flag (f_skip_if_default f) a); [|discriminate]. destruct (f_default f) as [[v|r]|] eqn:D; try discriminate. apply fin_bind; [exact (tot_factory d T f r I D)|discriminate].
    - intros x _. destruct (f_skip_if f); [discriminate|]. destruct (f_skip_if_false f); [discriminate|]. destruct (flag _ a); [discriminate|]. destruct (flag _ b); discriminate.
  Qed.
  Lemma fin_sefields d cv : total_class d -> sefields d cv <> NoFuel.
  Proof.
    intros T. unfold sefields. apply fin_bind; [|discriminate]. apply fin_mapM. intros f I. apply fin_bind.
    - unfold check_field. destruct (_ && _); [discriminate|]. destruct (_ && _); discriminate.
    - intros _ _. apply fin_bind; [eapply fin_skip_of; eauto|discriminate].
  Qed.
  Lemma fin_se_ty cfg hs t : forall var, se_ty P cfg hs var t <> NoFuel.
  Proof.
    induction t using pytype_ind'; intros var; cbn [se_ty]; (destruct (find_ser _ _ _) as [fk|]; [destruct hs; [|discriminate]|]); try discriminate;
      repeat (apply fin_bind; [|intros; try discriminate]); auto; try (destruct (r_suppress cfg); discriminate); try (intros; discriminate).
    1,2: destruct (is_opt (TUnion l)); [|discriminate]; destruct H; [discriminate|]; apply fin_bind; [auto|discriminate].
    1,2: match goal with |- context [?g 0 ?l0] => match type of H with Forall ?Q _ => assert (T : forall l n, Forall Q l -> g n l <> NoFuel) end end;
      [clear l H; induction l as [|a l IH]; intros n Hl; [discriminate|]; inversion_clear Hl; (apply fin_bind; [eauto|]); intros; (apply fin_bind; [eauto|]); discriminate|];
      specialize (T l 0 H); destruct l as [|a0 l0]; [discriminate|]; apply (fin_bind _ _ T); discriminate.
    1,2: destruct b as [[]|[]|[]| | |]; discriminate.
  Qed.
  Lemma fin_se_field n : forall cfg f parent, se_field P n cfg f parent <> NoFuel.
  Proof.
    assert (WL : forall cfg hs a t var es, legacy_wrap_list cfg hs a t var es <> NoFuel) by (intros; unfold legacy_wrap_list; destruct (_ && _); [|discriminate]; destruct es as [|? []]; discriminate).
    induction n as [|n IH]; intros cfg f parent; cbn [se_field];
      assert (PL : forall hs var t, (e <- se_ty P cfg hs var t ;; Ok [e]) <> NoFuel) by (intros; apply fin_bind; [apply fin_se_ty|discriminate]).
    2: assert (SPL : forall c var, match get_class P c with
            | None => Raise XAttr
            | Some d => fs <- sefields d (r_class_var cfg) ;; ess <- mapM (fun fs => se_field P n cfg (fst fs) var) fs ;; Ok (concat ess)
            end <> NoFuel)
      by (intros c var; destruct (get_class P c) as [d|] eqn:GC; [|discriminate]; apply fin_bind; [apply fin_sefields; exact (proj2 (proj2 TC) _ _ GC)|];
          intros fs _; apply fin_bind; [apply fin_mapM; intros; apply IH|discriminate]).
    all: destruct (find_ser P (r_class_ser cfg) (f_type f)) as [k|], (f_serializer f) as [[|g]|]; try discriminate.
    all: destruct (f_flatten f); [|apply PL].
    all: destruct (f_type f) as [| | | | |l| | | | | | | | | |c| | | | | | | |]; try apply PL; try (apply fin_bind; [discriminate || apply SPL|intros; apply WL]).
    all: destruct (opt_arg (TUnion l)) as [t'|]; [|apply PL]; destruct t' as [| | | | | | | | | | | | | | |c| | | | | | | |]; try apply PL.
    all: apply fin_bind; [|intros; apply WL]; cbn [has_some].
    all: destruct (find_ser P (r_class_ser cfg) (TClass c)); try discriminate; (apply fin_bind; [discriminate || apply SPL|intros; apply WL]).
  Qed.
  Lemma fin_conv case n rn : conv W case n rn <> NoFuel.
  Proof.
    unfold conv. apply fin_bind.
    - destruct case as [c|]; [|discriminate]. destruct (String.eqb c ""); [discriminate|]. destruct (w_case W c n); discriminate.
    - intros x _. destruct rn as [r|]; [|discriminate]. destruct (String.eqb r ""); discriminate.
  Qed.
  Lemma fin_lit x : lit x <> NoFuel.
  Proof. unfold lit. destruct (lit_ok x); discriminate. Qed.
  Lemma fin_targets n : forall case cv f, se_targets P W n case cv f <> NoFuel.
  Proof.
    induction n as [|n IH]; intros case cv f; cbn [se_targets];
      assert (KEY : (k <- conv W case (f_name f) (f_rename f) ;; k <- lit k ;; Ok [TgtKey k]) <> NoFuel)
        by (apply fin_bind; [apply fin_conv|]; intros; apply fin_bind; [apply fin_lit|]; discriminate).
    2: assert (SPL : forall c, match get_class P c with
            | None => Raise XAttr
            | Some d => fs <- sefields d cv ;; ts <- mapM (fun fs => se_targets P W n case cv (fst fs)) fs ;; Ok (concat ts)
            end <> NoFuel)
      by (intros c; destruct (get_class P c) as [d|] eqn:GC; [|discriminate]; apply fin_bind; [apply fin_sefields; exact (proj2 (proj2 TC) _ _ GC)|];
          intros fs _; apply fin_bind; [apply fin_mapM; intros; apply IH|discriminate]).
    all: destruct (f_flatten f); [|apply KEY].
    all: destruct (f_type f) as [| | | | |l| | | | | | | | | |c| | | | | | | |]; try discriminate; try apply SPL;
      match goal with |- context [opt_arg ?t] => generalize (opt_arg t) (is_flatten_dict t) end; intros o fd;
      (destruct o as [t'|]; [destruct t' as [| | | | | | | | | | | | | | |c'| | | | | | | |]|]); try discriminate; try apply SPL; destruct fd; (discriminate || apply KEY).
  Qed.
  Lemma fin_render d named : total_class d -> render_se P W d named <> NoFuel.
  Proof.
    intros T. unfold render_se, render_to_dict, render_to_tuple. destruct named; (apply fin_bind; [now apply fin_sefields|]); intros fs _; cbv zeta;
      (destruct (c_transparent d); [destruct (filter _ fs) as [|[f ?] ?]; [discriminate|]; apply fin_bind; [apply fin_se_field|discriminate]|]).
    - apply fin_bind; [|discriminate]. apply fin_mapM. intros x _. apply fin_bind; [apply fin_se_field|]. intros r _. apply fin_bind; [apply fin_targets|]. intros ts _. destruct r; discriminate.
    - apply fin_bind; [|discriminate]. apply fin_mapM. intros x _. apply fin_bind; [apply fin_se_field|]. intros r _. destruct r; discriminate.
  Qed.
  Lemma fin_render_union d l : render_union_se P d l <> NoFuel.
  Proof. apply fin_mapM. intros t _. apply fin_bind; [apply fin_se_ty|]. intros e _. apply fin_bind; [apply fin_lit|discriminate]. Qed.
  Lemma fns_good n : forall d d', total_class d' -> spliced d d' -> se_fns P n d' <> NoFuel /\ forall l, se_fns P n d' = Ok l -> Forall (fun x => good_fn d (snd x)) l.
  Proof.
    intros d.
    assert (KID : forall f c, match f_type f with
        | TClass c => Some c
        | t => match opt_arg t with Some (TClass c) => Some c | _ => None end
        end = Some c -> f_type f = TClass c \/ opt_arg (f_type f) = Some (TClass c)).
    { intros f c. destruct (f_type f) eqn:FT; try discriminate; try (intros E; injection E as <-; now left).
      destruct (opt_arg (TUnion l)) as [[]|]; try discriminate. intros E; injection E as <-; now right. }
    assert (OWN : forall d' f s0, total_class d' -> spliced d d' -> In f (c_fields d') -> field_skip (c_skip_if_default d') (c_skip_if_none d') f = Ok s0 ->
      Forall (fun x => good_fn d (snd x)) ((match s0 with Some (nm, s) => [(nm, GSkip s)] | None => [] end) ++
        (match f_serializer f with
         | Some FDefault => [(mangle (f_name f) "serializer", GFun (fun _ => Ok VNone))]
         | Some (FFun g) => [(mangle (f_name f) "serializer", GFun g)]
         | None => [] end))).
    { intros d' f s0 T SP I FS. apply Forall_app. split.
      - destruct s0 as [[nm s0]|]; [|constructor]. constructor; [|constructor]. cbn [snd]. unfold field_skip in FS. inv_bind FS.
        destruct (f_skip_if f) as [p|] eqn:SI; [injection FS as _ <-; exact (tot_skip d' T f p I SI)|].
        destruct (f_skip_if_false f); [injection FS as _ <-; exact Logic.I|].
        destruct (flag (f_skip_if_default f) (c_skip_if_default d')) eqn:FL.
        + injection FS as _ <-. destruct a as [x|]; [|exact Logic.I]. exists d', f. split; [exact SP|]. split; [exact I|]. split; [exact FL|].
          destruct (f_default f) as [[v|r]|]; [injection Hb as <-; now left| |discriminate]. inv_bind Hb. injection Hb as <-. right. now rewrite Hb0.
        + destruct (flag (f_skip_if_none f) (c_skip_if_none d')); [|discriminate FS]. injection FS as _ <-. exact Logic.I.
      - destruct (f_serializer f) as [[|g]|] eqn:SR; [apply Forall_cons; [|apply Forall_nil]..|apply Forall_nil]; cbn [snd good_fn].
        + intros y X. discriminate X.
        + exact (tot_field d' T f g I SR). }
    assert (STEP : forall d' (kid : string -> list (string * gfun) -> res (list (string * gfun))), total_class d' -> spliced d d' ->
       (forall c own, (forall d1, get_class P c = Some d1 -> spliced d d1) -> Forall (fun x => good_fn d (snd x)) own ->
          kid c own <> NoFuel /\ forall l, kid c own = Ok l -> Forall (fun x => good_fn d (snd x)) l) ->
       let go := fun fs : fielddef * option (string * skipfn) =>
          let f := fst fs in
          let own := (match snd fs with Some (nm, s) => [(nm, GSkip s)] | None => [] end) ++
            (match f_serializer f with
             | Some FDefault => [(mangle (f_name f) "serializer", GFun (fun _ => Ok VNone))]
             | Some (FFun g) => [(mangle (f_name f) "serializer", GFun g)]
             | None => [] end) in
          let child := match f_type f with
            | TClass c => Some c
            | t => match opt_arg t with Some (TClass c) => Some c | _ => None end
            end in
          match f_flatten f, child with
          | true, Some c => kid c own
          | _, _ => Ok own
          end in
       let all := fs <- sefields d' (c_ser_class_var d') ;; ls <- mapM go fs ;; Ok (concat ls) in
       all <> NoFuel /\ forall l, all = Ok l -> Forall (fun x => good_fn d (snd x)) l).
    { intros d' kid T SP REC go all. unfold all.
      assert (GO : forall fs f s0, sefields d' (c_ser_class_var d') = Ok fs -> In (f, s0) fs -> go (f, s0) <> NoFuel /\ forall l, go (f, s0) = Ok l -> Forall (fun x => good_fn d (snd x)) l).
      { intros fs f s0 SF I. unfold go. cbv zeta. cbn [fst snd]. apply (sefields_In _ _ _ _ _ SF) in I as [[I FS]|(_ & [[nm a] v] & I & -> & ->)].
        - specialize (OWN d' f s0 T SP I FS). set (own := _ ++ _) in OWN |- *. destruct (f_flatten f) eqn:FL; [|split; [discriminate|intros l E; injection E as <-; exact OWN]].
          specialize (KID f). destruct (match f_type f with TClass c => Some c | _ => _ end) as [c|] eqn:CH; [|split; [discriminate|intros l E; injection E as <-; exact OWN]].
          apply REC; [|exact OWN]. intros d1 GC. eapply sp_flat; eauto.
        - split; [discriminate|]. intros l E. injection E as <-. constructor. }
      split.
      - apply fin_bind; [now apply fin_sefields|]. intros fs SF. apply fin_bind; [|discriminate]. apply fin_mapM. intros [f s0] I. exact (proj1 (GO fs f s0 SF I)).
      - intros l E. inv_bind E. inv_bind E. injection E as <-. apply mapM_Ok in Hb0. apply Forall_concat. apply Forall_forall. intros l' I.
        destruct (Forall2_in_r _ _ _ _ Hb0 I) as ([f s0] & I1 & I2). exact (proj2 (GO a f s0 Hb I1) _ I2). }
    induction n as [|n IH]; intros d' T SP.
    - apply (STEP d' (fun _ _ => Raise XRecursion) T SP). intros. split; discriminate.
    - apply (STEP d' (fun c own => match get_class P c with None => Raise XAttr | Some d' => l <- se_fns P n d' ;; Ok (own ++ l) end) T SP).
      intros c own SP1 FO. destruct (get_class P c) as [d1|] eqn:GC; [|split; discriminate].
      destruct (IH d1) as [R1 R2]; [exact (proj2 (proj2 TC) _ _ GC)|auto|]. split; [apply fin_bind; [exact R1|discriminate]|].
      intros l E. inv_bind E. injection E as <-. apply Forall_app. auto.
  Qed.

  (** * Calls *)
  Lemma qse d v : okc d -> (c_ser_class_var d = true -> forall a, read_name a) ->
    (forall f x, In f (c_fields d) \/ (c_ser_class_var d = true /\ exists y, In y (c_class_vars d) /\ f = class_var_field y) ->
       getattr P v (f_name f) = Ok x -> callless (f_type f) = true \/ GG x) ->
    (forall c l, compared d (VObj c l) -> Base (VObj c l)) ->
    forall named ro rc sk, settles (fun n => run n (QSe d v named ro rc sk)).
  Proof.
    intros OK RN H CB named ro rc sk. apply set_run. cbn [step]. apply set_bind_pure; [apply fin_render, OK|]. intros b R.
    destruct (fns_good (class_fuel P) d d (proj1 OK) (sp_own d)) as [F1 F2].
    apply set_bind_pure; [exact F1|]. intros fns FE. destruct v; try (now apply set_ret).
    eapply (body_settles d); [exact (F2 _ FE)|exact CB|]. intros l0 e I1 I2.
    destruct (render_rhs _ _ _ _ R I1) as (fs & f & s0 & SF & IF & SE). pose proof (sefields_In _ _ _ _ _ SF IF) as FI.
    eapply (field_settles d) with (r := Ok (VObj c l)); [reflexivity|exact OK|exact (F2 _ FE)|exact SE|apply sp_own| |reflexivity|discriminate| | |exact I2].
    - destruct FI as [[FI _]|(_ & y & FI & FE' & _)]; [now left|right; exists y; auto].
    - destruct named; [discriminate|]. exact RN.
    - intros v x E. injection E as <-. apply H. destruct FI as [[FI _]|(CV & y & FI & FE' & _)]; [now left|right; split; [exact CV|]; exists y; auto].
  Qed.

  Hypothesis UA : forall c d, get_class P c = Some d -> unions_apart d.
  Lemma prog_ok c d : get_class P c = Some d -> okc d.
  Proof. intros G. split; [exact (proj2 (proj2 TC) _ _ G)|eauto]. Qed.
  Lemma prog_reads c d : get_class P c = Some d -> c_ser_class_var d = true -> forall a, read_name a.
  Proof. intros G V a. exists c, d. auto. Qed.

  Lemma len_fold l d : In d l -> String.length (c_id d) <= String.length (fold_right (fun d s => (c_id d ++ s)%string) "" l).
  Proof.
    assert (A : forall a b, String.length (a ++ b) = String.length a + String.length b) by (induction a as [|x a IH]; intros b; cbn; [reflexivity|now rewrite IH]).
    induction l as [|e l IH]; intros []; cbn [fold_right]; rewrite A; [subst; lia|]. specialize (IH H). lia.
  Qed.
  Lemma wrapper_fresh n t tg : get_class P (c_id (wrapper P n t tg)) = None.
  Proof.
    destruct (get_class P _) as [d|] eqn:G; [|reflexivity]. exfalso.
    assert (I : In d (p_classes P) /\ c_id d = c_id (wrapper P n t tg)) by (split; [|eapply get_class_id; eauto]; unfold get_class in G;
      revert G; induction (p_classes P) as [|e l IH]; cbn [find_class]; [discriminate|]; destruct (String.eqb _ _); [intros E; injection E as <-; now left|intros; right; auto]).
    destruct I as [I E]. apply len_fold in I. rewrite E in I. cbn in I. lia.
  Qed.
  Lemma leaf_apart n t tg : callless t = true -> unions_apart (wrapper P n t tg).
  Proof.
    intros CL u l R _ _. exfalso.
    assert (X : forall x, reach P (wrapper P n t tg) x -> x = TClass (c_id (wrapper P n t tg)) \/ x = t).
    { intros x Rx. induction Rx as [|f x [<-|[]] _ SB|c d' f x Rx IH GC _ _ _]; [now left|right|].
      - cbn [f_type] in SB. destruct t; try discriminate CL; inversion SB; reflexivity.
      - exfalso. destruct IH as [IH|IH]; [|subst t; discriminate CL]. pose proof (wrapper_fresh n t tg) as WF. assert (EC : c = c_id (wrapper P n t tg)) by (injection IH; auto). rewrite <- EC in WF. congruence. }
    apply X in R as [R|R]; [discriminate R|]. subst t. discriminate CL.
  Qed.
  Lemma wrapper_total n t tg : total_class (wrapper P n t tg).
  Proof. constructor; try (intros ? ? [<-|[]]; discriminate); intros; discriminate. Qed.
  Lemma fin_construct n t o : construct P W (wrapper P n t TagExternal) [o] [] <> NoFuel /\
    forall w, construct P W (wrapper P n t TagExternal) [o] [] = Ok w -> w = VObj (c_id (wrapper P n t TagExternal)) [("v", o)].
  Proof.
    unfold construct. set (d := wrapper P n t TagExternal). change (bind_pos (positional d) [o]) with (Some [("v", o)]). cbv iota.
    destruct (checked d && negb (args_ok P W d ([("v", o)] ++ []))); [split; discriminate|].
    change (no_dup_args d [("v", o)] []) with true. cbv iota. change (init_fields d ([("v", o)] ++ [])) with (@Ok (list (string * pyval)) [("v", o)]).
    cbn [bind c_post d]. change (c_post d (VObj (c_id d) [("v", o)])) with (Ok (VObj (c_id d) [("v", o)])). split; [discriminate|]. intros w E. injection E as <-. reflexivity.
  Qed.
  Lemma wrapper_settles n t o named ro rc sk : unions_apart (wrapper P n t TagExternal) -> callless t = true \/ GG o ->
    settles (fun k => w <- construct P W (wrapper P n t TagExternal) [o] [] ;; r <- run k (QSe (wrapper P n t TagExternal) w named ro rc sk) ;; getitem P r "v").
  Proof.
    intros UW G. destruct (fin_construct n t o) as [C1 C2]. apply set_bind_pure; [exact C1|]. intros w Cw. apply C2 in Cw. subst w.
    apply set_bind; [|intros; apply set_ret, fin_getitem]. apply qse.
    - split; [apply wrapper_total|exact UW].
    - discriminate.
    - intros f x [[<-|[]]|[CV _]] GA; [|discriminate CV]. cbn [f_type f_name] in *. change (getattr P (VObj (c_id (wrapper P n t TagExternal)) [("v", o)]) "v") with (Ok o) in GA.
      injection GA as <-. exact G.
    - intros c l (d' & f & SP & IF & FL & _). exfalso. destruct SP as [|d' f' c' d1 SP IF' FL' _ _].
      + destruct IF as [<-|[]]. discriminate FL.
      + clear -SP IF' FL'. revert f' IF' FL'. induction SP as [|d2 f2 c2 d3 SP IH I2 F2 _ _]; intros f' IF' FL'; [destruct IF' as [<-|[]]; discriminate FL'|eapply IH; eauto].
  Qed.

  (** Without a class argument *)
  Lemma plain_settles o named ro rc sk tc : tc = None \/ (exists tg, tc = Some (tg, TAny)) ->
    (forall k l x, o = VSeq k l -> In x l -> Base x) -> (forall k l a b, o = VMap k l -> In (a, b) l -> Base b) ->
    (forall c l d, o = VObj c l -> get_class P c = Some d -> settles (fun n => run n (QSe d o named ro rc sk))) ->
    settles (fun n => run n (QToObj o named ro rc sk tc)).
  Proof.
    intros T S M O. apply set_run. cbn [step]. apply set_catch; [|intros; now apply set_ret].
    assert (X : settles (fun n => to_obj_body P W K (run n) o named ro rc sk None)).
    2:{ destruct T as [->|[tg ->]]; [exact X|]. eapply set_ext; [exact X|]. intros n. unfold to_obj_body. cbn [option_map fst snd unalias]. reflexivity. }
    unfold to_obj_body. cbn [option_map].
    assert (FS : forall s0, first_ser P o = Some s0 -> settles (fun _ => cs_fn s0 o)).
    { intros s0 F. apply set_ret. unfold first_ser in F. apply find_some in F as [F _]. apply TC. exact F. }
    assert (TH : forall x, Base x -> settles (fun n => run n (QToObj x named ro rc sk None))) by (intros x B; apply B; now left).
    destruct o; try (now apply set_ret); (destruct (first_ser P _) as [s0|] eqn:F; [now apply FS|]); try (now apply set_ret).
    - destruct k; (apply set_bind; [|intros; now apply set_ret]); apply set_mapM; intros x I; apply TH; eapply S; eauto.
    - apply set_bind; [|intros; now apply set_ret]. apply set_mapM. intros [a b] I. apply set_bind; [|intros; now apply set_ret]. apply TH. eapply M; eauto.
    - apply set_bind_pure; [apply fin_of_option|]. intros d GD. destruct (get_class P c) as [d'|] eqn:GC; [|discriminate GD]. injection GD as ->. eapply O; eauto.
    - apply wrapper_settles; [now apply leaf_apart|now left].
    - apply wrapper_settles; [now apply leaf_apart|now left].
  Qed.

  (** * Values without parts *)
  Definition flatv (v : pyval) : Prop := match v with VObj _ _ => False | VSeq _ l => l = [] | VMap _ l => l = [] | _ => True end.
  Lemma flat_Base v : flatv v -> Base v.
  Proof.
    intros F. split.
    - intros. apply plain_settles; [assumption|intros k l x -> I; cbn in F; subst l; destruct I|intros k l a b -> I; cbn in F; subst l; destruct I|intros c l d ->; destruct F].
    - intros c l d named ro rc sk -> _. destruct F.
  Qed.
  Lemma chars_flat s x : In x (chars s) -> flatv x.
  Proof. induction s as [|c s IH]; cbn [chars]; [intros []|]. intros [<-|I]; [exact Logic.I|auto]. Qed.
  Lemma factory_flat f x : factory_value f = Ok x -> flatv x.
  Proof. unfold factory_value. repeat (destruct (String.eqb _ _); [intros E; injection E as <-; cbn; reflexivity || exact Logic.I|]). discriminate. Qed.
  Lemma flat_emits y v : emits y v -> flatv v -> flatv y.
  Proof.
    assert (SC : forall v l x, match scal_of P v with Some (SS s) => Ok (chars s) | _ => Raise XType end = Ok l -> In x l -> flatv x).
    { intros v0 l x H I. destruct (scal_of P v0) as [[]|]; try discriminate H. injection H as <-. now apply chars_flat in I. }
    assert (SI : forall v n x, match scal_of P v with Some (SS s) => of_option XIndex (nth_opt (chars s) n) | _ => Raise XType end = Ok x -> flatv x).
    { intros v0 n x H. destruct (scal_of P v0) as [[]|]; try discriminate H. destruct (nth_opt _ n) eqn:N; [|discriminate H]. injection H as <-. apply nth_opt_In in N. now apply chars_flat in N. }
    intros E F. destruct E as [v l x H I|v l a b H I|v l a b H I|v n x H|v a x _ H].
    - destruct v; try (match type of H with iter P ?v = _ => exact (SC v _ _ H I) end); cbn in F; subst; cbn in H; injection H as <-; destruct I.
    - destruct v; try discriminate H. cbn in F. injection H as <-. subst. destruct I.
    - destruct v; try discriminate H. cbn in F. injection H as <-. subst. destruct I.
    - destruct v; try (match type of H with getidx P ?v ?m = _ => exact (SI v m _ H) end).
      + cbn in F. subst. destruct k; try (destruct n; discriminate H); match type of H with getidx P ?v ?m = _ => exact (SI v m _ H) end.
      + cbn in F. subst. cbn in H. destruct k; [discriminate H|injection H as <-; exact Logic.I|now apply factory_flat in H].
    - destruct v; try discriminate H. destruct F.
  Qed.

  (** A set of values that generated code does not leave, except to values that are settled *)
  Lemma closed_good (A : pyval -> Prop) : (forall v, A v -> Base v) -> (forall v y, A v -> emits y v -> A y \/ GG y) -> forall v, A v -> GG v.
  Proof.
    intros HB HE.
    assert (BL : forall y v, below y v -> A v \/ GG v -> A y \/ GG y).
    { intros y v B. induction B as [y v E|v|x y v _ IH1 _ IH2]; auto. intros [X|X]; [eauto|right; eapply GG_step; eauto]. }
    assert (GU : forall y, GG y -> Base y /\ forall l, Un l y).
    { intros y G. split; [apply (G TAny); apply rt_refl|]. intros l. apply (G (TUnion l)); [apply rt_refl|apply in_sub; constructor]. }
    assert (Q : forall t l, inside (TUnion l) t -> forall v, A v -> Un l v).
    { assert (U : forall l, Forall (fun t => forall l', inside (TUnion l') t -> forall v, A v -> Un l' v) l -> forall v, A v -> Un l v).
      { intros l H v AV d f ro rc sk OK FU. apply set_run. cbn [step]. rewrite FU. cbn [of_option bind].
        apply set_bind_pure; [apply fin_render_union|]. intros arms R.
        destruct (fns_good (class_fuel P) d d (proj1 OK) (sp_own d)) as [F1 F2].
        apply set_bind_pure; [exact F1|]. intros fns FE. apply unionse_settles. intros t e I.
        unfold render_union_se in R. apply mapM_Ok in R. destruct (Forall2_in_r _ _ _ _ R I) as (t' & I1 & I2). inv_bind I2. inv_bind I2. injection I2 as -> ->.
        destruct (found _ _ _ FU) as [RU _].
        eapply (se_settles d) with (r := Ok v); [reflexivity|exact OK|exact Hb|reflexivity|discriminate| |].
        - intros l' I'. exists (TUnion l). split; [now left|]. eapply inside_sub; [|exact I']. eapply sub_union; [exact I1|constructor].
        - right. intros v' E. injection E as <-. intros y Y. destruct (BL y v Y (or_introl AV)) as [AY|AY].
          + split; [auto|]. intros l' I'. rewrite Forall_forall in H. eapply (H t); eauto.
          + destruct (GU y AY). split; auto. }
      assert (ONE : forall a l', (forall l, inside (TUnion l) a -> forall v, A v -> Un l v) -> forall u, sub_ty u a -> u = TUnion l' \/ (exists w, u = TClassVar w /\ inside (TUnion l') w) -> forall v, A v -> Un l' v).
      { intros a l' IH u SB [->|(w & -> & I)]; apply IH; [now apply in_sub|now apply in_var with w]. }
      induction t using pytype_ind'; intros l' I' v AV;
        (assert (SB : exists u, (u = TUnion l' \/ (exists w, u = TClassVar w /\ inside (TUnion l') w)) /\ sub_ty u ltac:(match type of I' with inside _ ?t => exact t end))
           by (destruct I' as [SB|w SB I']; [exists (TUnion l')|exists (TClassVar w)]; split; eauto));
        destruct SB as (u & EU & SB); inversion SB; subst;
        try (solve [destruct EU as [EU|(w & EU & I1)]; discriminate EU]);
        try (solve [eapply (ONE t); eauto]); try (solve [eapply (ONE t1); eauto]); try (solve [eapply (ONE t2); eauto]);
        try (solve [rewrite Forall_forall in H; eapply (ONE a); eauto]).
      - destruct EU as [EU|(w & EU & I1)]; [|discriminate EU]. injection EU as ->. now apply U.
      - destruct EU as [EU|(w & EU & I1)]; [discriminate EU|]. injection EU as ->. eauto. }
    intros v AV t y Y. destruct (BL y v Y (or_introl AV)) as [AY|AY].
    - split; [auto|]. intros l I. eapply Q; eauto.
    - destruct (GU y AY). split; auto.
  Qed.
  Lemma flat_GG v : flatv v -> GG v.
  Proof. apply closed_good; [exact flat_Base|]. intros x y F E. left. eapply flat_emits; eauto. Qed.

  (** * All values *)
  Lemma getattr_next c l a x : (forall d, get_class P c = Some d -> read_name a) -> getattr P (VObj c l) a = Ok x -> next x (VObj c l).
  Proof.
    intros R H. cbn [getattr] in H. destruct (slookup a l) as [y|] eqn:L; [injection H as <-; apply slookup_In in L; econstructor; exact L|].
    destruct (get_class P c) as [d|] eqn:G; [|discriminate H]. destruct (find _ _) as [[[n t] y]|] eqn:FD; [|discriminate H]. injection H as <-.
    apply find_some in FD as [F1 F2]. cbn in F2. apply String.eqb_eq in F2. subst n. eapply nx_var; eauto.
  Qed.
  Lemma dget_In es l k x : dget es l k = Some x -> exists a, In (a, x) l.
  Proof.
    induction l as [|[a b] l IH]; cbn [dget]; [discriminate|]. destruct (py_eqb _ _ _); [intros E; injection E as <-; exists a; now left|].
    intros E. destruct (IH E) as [a' I]. exists a'. now right.
  Qed.
  Lemma emits_next y v : emits y v -> flatv v \/ next y v \/ flatv y.
  Proof.
    intros E. destruct v as [| | | | | |k l|k l|c l| | | |]; try (left; exact Logic.I).
    - right. inversion E as [v l0 x H I|v l0 a b H I|v l0 a b H I|v n x H|v a x R H]; subst; try discriminate H.
      + injection H as <-. left. now constructor.
      + left. cbn [getidx] in H. destruct k; try discriminate H; (destruct (nth_opt l n) eqn:N; [|discriminate H]); injection H as <-; apply nth_opt_In in N; now constructor.
    - right. inversion E as [v l0 x H I|v l0 a b H I|v l0 a b H I|v n x H|v a x R H]; subst; try discriminate H.
      + injection H as <-. left. apply in_map_iff in I as ([a b] & <- & I). econstructor. exact I.
      + injection H as <-. left. econstructor. exact I.
      + injection H as <-. left. eapply nx_val. exact I.
      + cbn [getidx] in H. destruct (dget _ _ _) as [z|] eqn:D.
        * injection H as <-. apply dget_In in D as [a D]. left. eapply nx_val. exact D.
        * right. destruct k; [discriminate H|injection H as <-; exact Logic.I|now apply factory_flat in H].
    - right. left. inversion E as [v l0 x H I|v l0 a b H I|v l0 a b H I|v n x H|v a x R H]; subst; try discriminate H. eapply getattr_next; eauto.
  Qed.
  Lemma acc_GG v : Wf.Acc next v -> GG v.
  Proof.
    induction 1 as [v _ IH]. assert (B : forall y, next y v -> Base y) by (intros y N; apply (IH y N TAny); apply rt_refl).
    assert (Q : forall c l d, v = VObj c l -> get_class P c = Some d -> forall named ro rc sk, settles (fun n => run n (QSe d v named ro rc sk))).
    { intros c l d -> GC. apply qse; [eapply prog_ok; eauto|eapply prog_reads; eauto| |].
      - intros f x FI GA. right. apply IH. eapply getattr_next; [|exact GA]. intros _ _.
        destruct FI as [FI|[CV _]]; [exists c, d; split; [exact GC|right; exists f; auto]|eapply prog_reads; eauto].
      - intros c' l' CM. apply B. eapply nx_default; eauto. }
    apply (closed_good (fun x => x = v \/ flatv x)).
    - intros x [->|F]; [|now apply flat_Base]. split; [|eauto]. intros. apply plain_settles; [assumption|..].
      + intros k l x -> I. apply B. now constructor.
      + intros k l a b -> I. apply B. eapply nx_val. exact I.
      + eauto.
    - intros x y [->|F] E; [|left; right; eapply flat_emits; eauto]. destruct (emits_next y v E) as [F|[N|F]].
      + left. right. eapply flat_emits; eauto.
      + right. auto.
      + left. now right.
    - now left.
  Qed.
  Lemma top_settles o named ro rc sk tc : Wf.Acc next o ->
    match tc with Some (tg, t) => (forall n, unions_apart (wrapper P n (unalias t) TagExternal)) /\ unions_apart (union_wrapper P K tg (unalias t)) | None => True end ->
    settles (fun n => run n (QToObj o named ro rc sk tc)).
  Proof.
    intros AC HT. pose proof (acc_GG o AC) as G. pose proof (G TAny o (rt_refl _ _ _)) as [B _].
    destruct tc as [[tg t]|]; [|apply B; now left]. destruct HT as [HW HU].
    set (t' := unalias t) in *.
    apply set_run. cbn [step]. apply set_catch; [|intros; now apply set_ret].
    unfold to_obj_body. cbn [option_map fst snd]. fold t'.
    assert (FS : forall s0, first_ser P o = Some s0 -> settles (fun _ => cs_fn s0 o)).
    { intros s0 F. apply set_ret. unfold first_ser in F. apply find_some in F as [F _]. apply TC. exact F. }
    assert (TH : forall x, emits x o -> settles (fun n => run n (QToObj x named ro rc sk None))) by (intros x E; apply (G TAny); [now apply rt_step|now left]).
    pose (own := match o with VInst k _ => TStr k | VDate k _ => TDate k | _ => TNone end).
    pose (ty := match t' with TAny => own | _ => t' end).
    assert (PL : settles (fun n =>
        match o with
        | VNone => Ok VNone
        | _ =>
          match first_ser P o with
          | Some s => cs_fn s o
          | None =>
            match o with
            | VObj k _ => d <- of_option XAttr (get_class P k) ;; run n (QSe d o named ro rc sk)
            | VSeq KList l => l' <- mapM (fun e => run n (QToObj e named ro rc sk None)) l ;; Ok (VSeq KList l')
            | VSeq KTuple l => l' <- mapM (fun e => run n (QToObj e named ro rc sk None)) l ;; Ok (VSeq KTuple l')
            | VMap _ l => l' <- mapM (fun kv => x <- run n (QToObj (snd kv) named ro rc sk None) ;; Ok (fst kv, x)) l ;; Ok (VMap MDict l')
            | VSeq _ l => l' <- mapM (fun e => run n (QToObj e named ro rc sk None)) l ;; Ok (VSeq KList l')
            | VInst k _ | VDate k _ =>
              w <- construct P W (wrapper P ("Wrapper" ++ typename P ty)%string ty TagExternal) [o] [] ;;
              r <- run n (QSe (wrapper P ("Wrapper" ++ typename P ty)%string ty TagExternal) w true ro rc sk) ;;
              getitem P r "v"
            | _ => Ok o
            end
          end
        end)).
    { assert (HT : own <> TNone -> forall n, unions_apart (wrapper P n ty TagExternal)).
      { intros NO n. unfold ty. destruct t'; try apply HW. unfold own in *. destruct o; try (now destruct NO); now apply leaf_apart. }
      destruct o; try (now apply set_ret); (destruct (first_ser P _) as [s0|] eqn:F; [now apply FS|]); try (now apply set_ret).
      - destruct k; (apply set_bind; [|intros; now apply set_ret]); apply set_mapM; intros x I; apply TH; eapply em_iter; eauto; reflexivity.
      - apply set_bind; [|intros; now apply set_ret]. apply set_mapM. intros [a b] I. apply set_bind; [|intros; now apply set_ret]. apply TH. eapply em_val; eauto; reflexivity.
      - apply set_bind_pure; [apply fin_of_option|]. intros d GD. destruct (get_class P c) as [d'|] eqn:GC; [|discriminate GD]. injection GD as ->. eapply (proj2 B); eauto.
      - apply wrapper_settles; [apply HT; discriminate|now right].
      - apply wrapper_settles; [apply HT; discriminate|now right]. }
    destruct t'; try exact PL; try (destruct o; exact PL). destruct (is_opt (TUnion l)); [exact PL|].
    destruct (find_union P (union_wrapper P K tg (TUnion l)) "union_se" (union_func_name P "union_se" l)) as [u|] eqn:FU.
    - apply (proj2 (G (TUnion u) o (rt_refl _ _ _)) u); [apply in_sub; constructor|split; [apply wrapper_total|exact HU]|exact FU].
    - apply set_run. cbn [step]. rewrite FU. cbn [of_option bind]. now apply (set_ret (Raise XKey)).
  Qed.

  (** * Values that lead to finitely many others *)

  (** The parts of a value *)
  Inductive part : pyval -> pyval -> Prop :=
  | part_refl v : part v v
  | part_elem y k l x : In x l -> part y x -> part y (VSeq k l)
  | part_key y k l a b : In (a, b) l -> part y a -> part y (VMap k l)
  | part_val y k l a b : In (a, b) l -> part y b -> part y (VMap k l)
  | part_attr y c l a x : In (a, x) l -> part y x -> part y (VObj c l).
  (** Values that a class brings along: class variables that are read, and objects that fields are compared with *)
  Definition held (d : classdef) (x : pyval) : Prop :=
    (exists n t, In (n, t, x) (c_class_vars d) /\ read_name n) \/ (exists c l, x = VObj c l /\ compared d x).
  (** No class brings along objects that bring along an object of the class. *)
  Definition layered : Prop := exists rank : string -> nat, forall c d x c' l',
    get_class P c = Some d -> held d x -> part (VObj c' l') x -> rank c' < rank c.

  Lemma layered_acc : layered -> forall v, Wf.Acc next v.
  Proof.
    intros [rank L].
    assert (BD : forall v, exists r, forall c l, part (VObj c l) v -> rank c < r).
    { assert (LB : forall {A} (Q : A -> nat -> Prop) (l : list A), (forall a r r', Q a r -> r <= r' -> Q a r') -> Forall (fun a => exists r, Q a r) l -> exists r, Forall (fun a => Q a r) l).
      { intros A Q l M F. induction F as [|a l [r H] _ [r' H']]; [exists 0; constructor|]. exists (max r r'). constructor; [eapply M; [exact H|lia]|].
        eapply Forall_impl; [|exact H']. intros x X. eapply M; [exact X|lia]. }
      induction v using pyval_ind'; try (exists 0; intros c' l' X; inversion X; fail).
      - destruct (LB _ (fun x r => forall c l, part (VObj c l) x -> rank c < r) l) as [r F]; [intros a r r' Q LE c' l' X; specialize (Q _ _ X); lia|exact H|].
        exists r. intros c' l' X. inversion X; subst. rewrite Forall_forall in F. eapply F; eauto.
      - destruct (LB _ (fun x r => (forall c l, part (VObj c l) (fst x) -> rank c < r) /\ (forall c l, part (VObj c l) (snd x) -> rank c < r)) l) as [r F].
        + intros a r r' [Q Q'] LE. split; intros c' l' X; [specialize (Q _ _ X)|specialize (Q' _ _ X)]; lia.
        + eapply Forall_impl; [|exact H]. intros x [[r1 R1] [r2 R2]]. exists (max r1 r2). split; intros c' l' X; [specialize (R1 _ _ X)|specialize (R2 _ _ X)]; lia.
        + exists r. intros c' l' X. rewrite Forall_forall in F. inversion X; subst; match goal with I : In _ l |- _ => destruct (F _ I) as [F1 F2] end; cbn [fst snd] in *; eauto.
      - destruct (LB _ (fun x r => forall c l, part (VObj c l) (snd x) -> rank c < r) l) as [r F]; [intros a r r' Q LE c' l' X; specialize (Q _ _ X); lia|exact H|].
        exists (max r (S (rank c))). intros c' l' X. inversion X; subst; [lia|]. rewrite Forall_forall in F.
        match goal with I : In (?a, ?x) l, X : part _ ?x |- _ => specialize (F _ I c' l' X) end. lia. }
    assert (R : forall r v, (forall c l, part (VObj c l) v -> rank c < r) -> Wf.Acc next v).
    { induction r as [r IHr] using lt_wf_ind. intros v. induction v as [v IHv] using (well_founded_induction (Wf_nat.well_founded_ltof _ vsize)). intros H.
      constructor. intros y N. unfold ltof in IHv. inversion N; subst.
      - apply IHv; [now apply SeRT.vsize_seq|]. intros. eapply H, part_elem; eauto.
      - apply IHv; [exact (proj1 (SeRT.vsize_map k l (y, b) ltac:(eassumption)))|]. intros. eapply H, part_key; eauto.
      - apply IHv; [exact (proj2 (SeRT.vsize_map k l (a, y) ltac:(eassumption)))|]. intros. eapply H, part_val; eauto.
      - apply IHv; [exact (SeRT.vsize_obj c l (a, y) ltac:(eassumption))|]. intros. eapply H, part_attr; eauto.
      - apply (IHr (rank c)); [apply (H c l), part_refl|]. intros c' l' X. eapply L; [eassumption| |exact X]. left. eauto.
      - apply (IHr (rank c)); [apply (H c l), part_refl|]. intros c0 l0 X. eapply L; [eassumption| |exact X]. right. eauto. }
    intros v. destruct (BD v) as [r H]. eauto.
  Qed.
End End.

(** * C59 *)
Section C59.
  Variables (P : program) (W : world) (K : list (tagging * pytype)).

  (** The unions in the annotations of the classes and in the class argument [c] *)
  Definition union_of (c : option pytype) (l : list pytype) : Prop := exists t, inside (TUnion l) t /\
    ((exists d f, In d (p_classes P) /\ In f (c_fields d) /\ f_type f = t) \/
     (exists d n v, In d (p_classes P) /\ In (n, t, v) (c_class_vars d)) \/
     (exists a, c = Some a /\ (unalias a = t \/ exists tg, In (tg, t) K /\ ty_eqb t (unalias a) = true))).
  (** ... have different names (C37 has what happens if they do not). *)
  Definition names_apart (c : option pytype) : Prop := forall u l, union_of c u -> union_of c l ->
    union_func_name P "union_se" u = union_func_name P "union_se" l -> u = l.

  Lemma get_class_In c d : get_class P c = Some d -> In d (p_classes P).
  Proof. intros H. now apply find_class_id in H as [_ H]. Qed.
  Lemma inside_var u a : inside u (TClassVar a) -> u = TClassVar a \/ inside u a.
  Proof.
    intros H. inversion H as [S|b S I]; subst; [inversion S; auto|]. inversion S; subst. now right.
  Qed.
  Lemma spliced_own d d' : spliced P d d' -> d' = d \/ In d' (p_classes P).
  Proof. induction 1 as [|d' f c d1 _ _ _ _ _ G]; [now left|right]. eapply get_class_In; eauto. Qed.
  Lemma apart_class c d : names_apart c ->
    (In d (p_classes P) \/ (c_class_vars d = [] /\ exists f t, c_fields d = [f] /\ f_type f = t /\
      exists a, c = Some a /\ (unalias a = t \/ exists tg, In (tg, t) K /\ ty_eqb t (unalias a) = true))) ->
    unions_apart P d.
  Proof.
    intros NA D.
    assert (FT : forall f, In f (c_fields d) -> forall l, inside (TUnion l) (f_type f) -> union_of c l).
    { intros f I l IN. exists (f_type f). split; [exact IN|]. destruct D as [D|(_ & f' & t & E & T & a & A)]; [left; eauto|].
      right. right. rewrite E in I. destruct I as [<-|[]]. rewrite T. eauto. }
    assert (RE : forall t, reach P d t -> (exists n, t = TClass n) \/ forall l, inside (TUnion l) t -> union_of c l).
    { assert (SI : forall u t f, inside u t -> sub_ty t f -> inside u f).
      { intros u t f IN S. revert IN S. intros [S'|a S' I'] S; [apply in_sub|eapply in_var; [|exact I']]; clear - S' S;
          (induction S; [assumption|econstructor; eauto; fail..]). }
      intros t R. inversion R as [|f t' I _ S|n d' f t' _ G I _ S]; subst; [left; eauto|right; intros l IN..].
      - eapply FT; eauto.
      - exists (f_type f). split; [eauto|left]. exists d', f. split; [|auto]. eapply get_class_In; eauto. }
    intros u l RU (t & RL & IN). apply NA.
    - destruct (RE _ RU) as [[n E]|H]; [discriminate|]. apply H. apply in_sub. constructor.
    - destruct RL as [R|(d' & S & A)].
      + destruct (RE _ R) as [[n ->]|H]; [|auto]. inversion IN as [X|a X _]; subst; inversion X.
      + destruct (spliced_own _ _ S) as [->|I].
        * destruct A as [(f & I & <-)|(n & a & v & I & ->)]; [eapply FT; eauto|].
          destruct (inside_var _ _ IN) as [X|X]; [discriminate X|]. destruct D as [D|(CV & _)]; [|rewrite CV in I; destruct I].
          exists a. split; [exact X|right; left; eauto].
        * destruct A as [(f & I' & <-)|(n & a & v & I' & ->)]; [exists (f_type f); split; [exact IN|left; eauto]|].
          destruct (inside_var _ _ IN) as [X|X]; [discriminate X|]. exists a. split; [exact X|right; left; eauto].
  Qed.

  (** Serializing any value, as any class, ends: there is an outcome, a value or an exception, that is reached
      however many more nested calls are allowed.  Classes may refer to themselves and to each other in
      their fields.  They must not bring along objects of their own: in class variables that are written, or as
      defaults that fields are compared with. *)
  Theorem C59_ends o c reuse conv skip :
    total_code P W -> enums_ordered P -> names_apart (option_map snd c) -> layered P ->
    (exists r, r <> NoFuel /\ exists N, forall n, N <= n -> to_dict P W K n o c reuse conv skip = r) /\
    (exists r, r <> NoFuel /\ exists N, forall n, N <= n -> to_tuple P W K n o c reuse conv skip = r).
  Proof.
    intros TC EO NA LA.
    assert (UA : forall k d, get_class P k = Some d -> unions_apart P d) by (intros k d G; eapply apart_class; [exact NA|left; eapply get_class_In; eauto]).
    assert (ST : forall named, settles (fun n => run P W K n (QToObj o named reuse conv skip c))).
    { intros named. apply top_settles; [assumption..|now apply layered_acc|]. destruct c as [[tg t]|]; [|exact I].
      split; [intros n; eapply apart_class; [exact NA|]|eapply apart_class; [exact NA|]]; right; (split; [reflexivity|]).
      - eexists _, _. split; [reflexivity|]. split; [reflexivity|]. exists t. auto.
      - eexists _, _. split; [reflexivity|]. split; [reflexivity|]. exists t. split; [reflexivity|]. cbn [f_type].
        destruct (find _ K) as [[tg' t']|] eqn:F; [|now left]. right. apply find_some in F as [I E]. cbn [fst snd] in *.
        apply andb_prop in E as [_ E]. eauto. }
    split; [exact (ST true)|exact (ST false)].
  Qed.
End C59.
Print Assumptions C59_ends.

Module EndEx.
  Definition vcls (n : string) (fs : list fielddef) (vars : list (string * pytype * pyval)) : classdef :=
    {| c_id := n; c_name := n; c_fields := fs;
       c_mro := []; c_rename_all := None; c_reuse := true; c_conv := false;
       c_skip_if_default := false; c_skip_if_none := false; c_serializer := None; c_deserializer := None;
       c_tagging := TagExternal; c_check := TcStrict; c_ser_class_var := true; c_class_vars := vars;
       c_transparent := false; c_class_ser := None; c_class_de := None; c_deny := false;
       c_tvars := None; c_post := fun o => Ok o; c_hashable := false |}.

  Definition with_factory (v : pyval) (f : fielddef) : fielddef :=
    {| f_name := f_name f; f_type := f_type f; f_default := Some (DFact (Ok v)); f_init := f_init f; f_kw_only := f_kw_only f;
       f_rename := f_rename f; f_alias := f_alias f; f_skip := f_skip f; f_skip_se := f_skip_se f; f_skip_de := f_skip_de f;
       f_skip_if := f_skip_if f; f_skip_if_false := f_skip_if_false f; f_skip_if_none := f_skip_if_none f;
       f_skip_if_default := f_skip_if_default f;
       f_serializer := f_serializer f; f_deserializer := f_deserializer f; f_flatten := f_flatten f |}.

  (** A recursive class with a union, a class variable that holds an object, and a field that is compared with an object *)
  Definition Meta := cls "Meta" [fld "n" TInt].
  Definition Tree := vcls "Tree"
    [fld "tag" (TUnion [TInt; TString]); fld "kids" (TList LList (TClass "Tree"));
     with_skip_if None false None (Some true) (with_factory (VObj "Meta" [("n", VInt 0)]) (fld "m" (TClass "Meta")))]
    [("META", TClass "Meta", VObj "Meta" [("n", VInt 7)])].
  Definition tp := prog [Meta; Tree] [mkEnum "E" "E" None [("A", VInt 1)]].
  Definition leaf := VObj "Tree" [("tag", VStr "leaf"); ("kids", vlist []); ("m", VObj "Meta" [("n", VInt 0)])].
  Definition root := VObj "Tree" [("tag", VInt 1); ("kids", vlist [leaf; leaf]); ("m", VObj "Meta" [("n", VInt 5)])].


  Lemma W0_total k : total (w_ctor W0 k).
  Proof. intros []; discriminate. Qed.
  Lemma get_tp c d : get_class tp c = Some d -> c = "Meta" /\ d = Meta \/ c = "Tree" /\ d = Tree.
  Proof.
    intros H. destruct (find_class_id _ _ _ H) as [E [<-|[<-|[]]]]; [left|right]; (split; [symmetry; exact E|reflexivity]).
  Qed.
  Lemma tp_total : total_code tp W0.
  Proof.
    split; [exact W0_total|]. split; [intros s []|]. intros c d H.
    destruct (get_tp _ _ H) as [[_ ->]|[_ ->]]; split; try discriminate;
      intros f g I E; repeat (destruct I as [<-|I]; [try discriminate E; injection E as <-; discriminate|]); destruct I.
  Qed.
  Lemma enum_tp : enums_ordered tp.
  Proof.
    exists (fun _ => 0). split; [intros; apply Nat.le_0_l|]. intros c m c' m' H. exfalso. unfold enum_member in H.
    destruct (get_enum tp c) as [e|] eqn:E; [|discriminate]. unfold get_enum in E.
    cbn [find_enum p_enums prog tp e_id] in E. destruct (String.eqb "E" c); [|discriminate]. injection E as <-.
    cbn [e_members slookup] in H. destruct (String.eqb _ _); discriminate.
  Qed.
  Definition arg := TList LList (TClass "Tree").
  Lemma apart_tp : names_apart tp [] (Some arg).
  Proof.
    assert (H : forall l, union_of tp [] (Some arg) l -> l = [TInt; TString]).
    { intros l (t & IN & H).
      assert (C : In t [TInt; TUnion [TInt; TString]; TList LList (TClass "Tree"); TClass "Meta"]).
      { destruct H as [(d & f & D & F & <-)|[(d & n & v & D & F)|(a & A & [<-|(tg & [] & _)])]].
        - destruct D as [<-|[<-|[]]]; repeat (destruct F as [<-|F]; [cbn; auto 6|]); destruct F.
        - destruct D as [<-|[<-|[]]]; repeat (destruct F as [F|F]; [injection F as _ <- _; cbn; auto 6|]); destruct F.
        - injection A as <-. cbn. auto. }
      clear H. destruct C as [<-|[<-|[<-|[<-|[]]]]]; destruct IN as [S|b S IN]; inversion S; subst; auto;
        repeat match goal with
        | I : In _ _ |- _ => cbn [In] in I
        | I : _ \/ _ |- _ => destruct I as [I|I]
        | I : False |- _ => destruct I
        | I : _ = _ |- _ => subst
        | I : sub_ty _ TInt |- _ => inversion I
        | I : sub_ty _ TString |- _ => inversion I
        | I : sub_ty _ (TClass _) |- _ => inversion I
        end. }
    intros u l U L _. now rewrite (H _ U), (H _ L).
  Qed.
  Lemma layered_tp : layered tp.
  Proof.
    exists (fun c => if String.eqb c "Tree" then 1 else 0). intros c d x c' l' G H PA.
    assert (X : exists n, x = VObj "Meta" [("n", VInt n)] /\ d = Tree).
    { destruct (get_tp _ _ G) as [[-> ->]|[-> ->]]; destruct H as [(n & t & E & _)|(c0 & l0 & -> & d' & f & S & F & D)].
      - destruct E.
      - exfalso. assert (D' : d' = Meta).
        { clear F D. induction S as [|d' f' c1 d1 _ IH I FL]; [reflexivity|]. subst d'. destruct I as [<-|[]]. discriminate FL. }
        subst d'. destruct F as [<-|[]]. destruct D as [D _]. discriminate D.
      - destruct E as [E|[]]. injection E as _ _ <-. eauto.
      - assert (D' : d' = Tree).
        { clear F D. induction S as [|d' f' c1 d1 _ IH I FL]; [reflexivity|]. subst d'. repeat (destruct I as [<-|I]; [discriminate FL|]). destruct I. }
        subst d'. destruct F as [<-|[<-|[<-|[]]]]; destruct D as [D E]; try discriminate D. destruct E as [E|E]; [discriminate E|]. injection E as <- <-. eauto. }
    destruct X as (n & -> & ->). destruct (get_tp _ _ G) as [[_ E]|[-> _]]; [discriminate E|].
    inversion PA as [| | | |y c1 l1 a z I Q]; subst; [cbn; auto|]. destruct I as [I|[]]. injection I as <- <-. inversion Q.
  Qed.
  Example ends :
    (exists r, r <> NoFuel /\ exists N, forall n, N <= n -> to_dict tp W0 [] n (vlist [root]) (Some (TagExternal, arg)) None None false = r) /\
    (exists r, r <> NoFuel /\ exists N, forall n, N <= n -> to_tuple tp W0 [] n (vlist [root]) (Some (TagExternal, arg)) None None false = r).
  Proof.
    apply C59_ends; [exact tp_total|exact enum_tp|exact apart_tp|exact layered_tp].
  Qed.
  Example ends_in : to_dict tp W0 [] 7 (vlist [root]) (Some (TagExternal, arg)) None None false =
    let m (n : Z) := dict [("n", VInt n)] in
    let lf := dict [("tag", VStr "leaf"); ("kids", vlist []); ("META", m 7%Z)] in
    Ok (vlist [dict [("tag", VInt 1); ("kids", vlist [lf; lf]); ("m", m 5%Z); ("META", m 7%Z)]]).
  Proof. vm_compute. reflexivity. Qed.

  (** A class variable that holds an object of its class, written because of serialize_class_var *)
  Definition One := vcls "One" [] [("ONE", TClass "One", VObj "One" [])].
  Definition op := prog [One] [].
  Definition one := VObj "One" [].
  (** A field that is left out if it equals its default, an object of the class *)
  Definition Two := cls "Two" [with_skip_if None false None (Some true) (with_factory (VObj "Two" [("t", VNone)]) (fld "t" (TOpt (TClass "Two"))))].
  Definition wp := prog [Two] [].
  Definition two := VObj "Two" [("t", VNone)].

  Lemma op_loops n : forall ro rc, run op W0 [] n (QSe One one true ro rc false) = NoFuel.
  Proof.
    induction n as [|n IH]; [reflexivity|]. intros ro rc. cbn [run step].
    destruct (render_se op W0 One true) as [b| |] eqn:R; vm_compute in R; try discriminate R. injection R as <-.
    destruct (se_fns op (class_fuel op) One) as [fns| |] eqn:F; vm_compute in F; try discriminate F. injection F as <-.
    cbn [bind one]. unfold run_se_body. cbn [foldM]. unfold run_sstmt. cbn [s_rhs mapM].
    match goal with |- context [eval ?p ?w ?f ?c ?r ?e] => assert (E : eval p w f c r e = NoFuel) end.
    { cbn [eval]. change (slookup "obj" [("obj", VObj "One" [])]) with (Some one). cbn [of_option bind getattr].
      change (getattr op one "ONE") with (Ok one). cbn [bind one]. change (get_class op "One") with (Some One). cbn [of_option bind]. apply IH. }
    rewrite E. reflexivity.
  Qed.
  Lemma wp_loops n : forall ro rc, run wp W0 [] n (QSe Two two true ro rc false) = NoFuel /\
    run wp W0 [] n (QToObj two true ro rc false None) = NoFuel.
  Proof.
    induction n as [|n IH]; [split; reflexivity|]. intros ro rc. split.
    - cbn [run step].
      destruct (render_se wp W0 Two true) as [b| |] eqn:R; vm_compute in R; try discriminate R. injection R as <-.
      destruct (se_fns wp (class_fuel wp) Two) as [fns| |] eqn:F; vm_compute in F; try discriminate F. injection F as <-.
      cbn [bind two]. unfold run_se_body. cbn [foldM]. unfold run_sstmt. cbn [s_rhs mapM].
      match goal with |- context [eval ?p ?w ?f ?c ?r ?e] => assert (E : eval p w f c r e = Ok VNone) end.
      { reflexivity. }
      rewrite E. cbn [bind s_targets s_skip]. 
      match goal with |- context [fn_lookup ?c ?n] => change (fn_lookup c n) with (Some (GSkip (SkDefault (Some two)))) end.
      cbn [run_skip two]. change (VObj "Two" [("t", VNone)]) with two. destruct (IH None None) as [_ ->]. reflexivity.
    - cbn [run step]. unfold to_obj_body. cbn [two option_map first_ser p_sers wp prog find]. change (get_class wp "Two") with (Some Two). cbn [of_option bind].
      fold two. destruct (IH ro rc) as [-> _]. reflexivity.
  Qed.
End EndEx.
Import EndEx.

(** Without that condition it can go on forever: here in the class variable of the object in the class variable of ... *)
Theorem C59_class_var_refuted : exists P o, total_code P W0 /\ enums_ordered P /\ names_apart P [] None /\
  forall n, to_dict P W0 [] n o None None None false = NoFuel.
Proof.
  exists op, one. split; [|split; [|split]].
  - split; [exact W0_total|]. split; [intros s []|]. intros c d H. destruct (find_class_id _ _ _ H) as [_ [<-|[]]].
    split; try discriminate; intros f g [].
  - exists (fun _ => 0). split; [intros; apply Nat.le_0_l|]. intros c m c' m' H. discriminate H.
  - intros u l (t & IN & U) _ _. exfalso. destruct U as [(d & f & [<-|[]] & [] & _)|[(d & n & v & [<-|[]] & [E|[]])|(a & A & _)]]; [|discriminate A].
    injection E as _ <- _. destruct IN as [S|b S IN]; inversion S.
  - intros [|n]; [reflexivity|]. unfold to_dict. cbn [run step]. unfold to_obj_body. cbn [one option_map first_ser p_sers op prog find].
    change (get_class op "One") with (Some One). cbn [of_option bind]. fold one. now rewrite op_loops.
Qed.
(** ... and here in the default of the field of the default of ... (CPython stops this at its recursion limit, which
    core.py:583 takes for an error of the default; the limit is not modelled). *)
Theorem C59_default_refuted : exists P o, total_code P W0 /\ enums_ordered P /\ names_apart P [] None /\
  forall n, to_dict P W0 [] n o None None None false = NoFuel.
Proof.
  exists wp, two. split; [|split; [|split]].
  - split; [exact W0_total|]. split; [intros s []|]. intros c d H. destruct (find_class_id _ _ _ H) as [_ [<-|[]]].
    split; try discriminate; intros f g [<-|[]] E; try discriminate E; injection E as <-; discriminate.
  - exists (fun _ => 0). split; [intros; apply Nat.le_0_l|]. intros c m c' m' H. discriminate H.
  - assert (H : forall l, union_of wp [] None l -> l = [TClass "Two"; TNone]).
    { intros l (t & IN & U). assert (T : t = TOpt (TClass "Two")).
      { destruct U as [(d & f & [<-|[]] & [<-|[]] & <-)|[(d & n & v & [<-|[]] & [])|(a & A & _)]]; [reflexivity|discriminate A]. }
      subst t. destruct IN as [S|b S IN]; inversion S as [|t' l' a I S' |  | | | | | | | |]; subst; auto;
        destruct I as [<-|[<-|[]]]; inversion S'. }
    intros u l U L _. now rewrite (H _ U), (H _ L).
  - intros n. exact (proj2 (wp_loops n None None)).
Qed.
Print Assumptions C59_class_var_refuted.
Print Assumptions C59_default_refuted.
