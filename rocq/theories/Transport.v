(** The serialized form of a value, after any change a data format makes to it, is accepted as form of
    the value. *)
From Coq Require Import String List ZArith Bool Lia Permutation.
From Coq Require Import Floats.SpecFloat.
From Verif Require Import Base PyVal PyType Program Compat Syntax SeRender DeRender Eval Facts Mono Spec Cover SeRT DeRT SpecFmt.
Import ListNotations.
Open Scope string_scope.
Open Scope list_scope.

(** * Lists *)
Lemma Forall2_perm_l {A B} (R : A -> B -> Prop) l' l2 : Permutation l' l2 -> forall l, Forall2 R l l' ->
  exists l0, Permutation l l0 /\ Forall2 R l0 l2.
Proof.
  induction 1; intros la F.
  - inversion F; subst. exists []. auto.
  - inversion F as [|a b la' lb' R1 F1]; subst. destruct (IHPermutation _ F1) as [l1 [P1 F2]]. exists (a :: l1). auto.
  - inversion F as [|a b la' lb' R1 F1]; subst. inversion F1 as [|a2 b2 la2 lb2 R2 F2]; subst. exists (a2 :: a :: la2). split; [constructor|]. auto.
  - destruct (IHPermutation1 _ F) as [l1 [P1 F1]]. destruct (IHPermutation2 _ F1) as [l2 [P2 F2]].
    exists l2. split; auto. now transitivity l1.
Qed.
Lemma Forall2_In_l {A B} (R : A -> B -> Prop) l l' a : Forall2 R l l' -> In a l -> exists b, In b l' /\ R a b.
Proof. induction 1; [easy|]. intros [->|Hi]; [exists y; split; auto; now left|]. destruct (IHForall2 Hi) as [b [? ?]]. exists b. split; auto. now right. Qed.
Lemma Forall2_In_r {A B} (R : A -> B -> Prop) l l' b : Forall2 R l l' -> In b l' -> exists a, In a l /\ R a b.
Proof. induction 1; [easy|]. intros [->|Hi]; [exists x; split; auto; now left|]. destruct (IHForall2 Hi) as [a [? ?]]. exists a. split; auto. now right. Qed.
Lemma Forall3_In {A B C} (R : A -> B -> C -> Prop) la lb lc : Forall3 R la lb lc ->
  Forall3 (fun a b c => R a b c /\ In a la /\ In b lb /\ In c lc) la lb lc.
Proof.
  induction 1; constructor.
  - repeat split; auto; now left.
  - eapply Forall3_impl; [|exact IHForall3]. cbv beta. intros x y z [? [? [? ?]]]. repeat split; auto; now right.
Qed.
Lemma Forall3_choice {A B C} (R : A -> B -> C -> Prop) (S : A -> B -> B -> Prop) la lb lc : Forall3 R la lb lc ->
  (forall a b c, R a b c -> exists b', S a b b') -> exists lb', Forall3 S la lb lb'.
Proof.
  induction 1; intros HS; [exists []; constructor|]. destruct (IHForall3 HS) as [l' F]. destruct (HS _ _ _ H) as [b' Hb].
  exists (b' :: l'). now constructor.
Qed.
Lemma Forall3_Forall2_and {A B C} (R : A -> B -> C -> Prop) (S : A -> B -> Prop) la lb lc :
  Forall3 R la lb lc -> Forall2 S la lb -> Forall3 (fun a b c => R a b c /\ S a b) la lb lc.
Proof. induction 1; intros F; inversion F; subst; constructor; auto. Qed.
Lemma Forall3_12 {A B C} (R : A -> B -> C -> Prop) (S : A -> B -> Prop) la lb lc : (forall a b c, R a b c -> S a b) ->
  Forall3 R la lb lc -> Forall2 S la lb.
Proof. induction 2; constructor; eauto. Qed.
Lemma Forall3_13 {A B C} (R : A -> B -> C -> Prop) (S : A -> C -> Prop) la lb lc : (forall a b c, R a b c -> S a c) ->
  Forall3 R la lb lc -> Forall2 S la lc.
Proof. induction 2; constructor; eauto. Qed.
Lemma Forall3_23 {A B C} (R : A -> B -> C -> Prop) (S : B -> C -> Prop) la lb lc : (forall a b c, R a b c -> S b c) ->
  Forall3 R la lb lc -> Forall2 S lb lc.
Proof. induction 2; constructor; eauto. Qed.
Lemma Forall2_map_eq {A B C} (f : A -> C) (g : B -> C) (R : A -> B -> Prop) l l' :
  (forall a b, R a b -> f a = g b) -> Forall2 R l l' -> map f l = map g l'.
Proof. induction 2; simpl; f_equal; auto. Qed.
Lemma Forall2_and_inv {A B} (R S : A -> B -> Prop) l l' : Forall2 (fun a b => R a b /\ S a b) l l' -> Forall2 R l l' /\ Forall2 S l l'.
Proof. induction 1; split; constructor; tauto. Qed.
Lemma Forall2_choice3 {A B C} (R : A -> B -> Prop) (S : A -> C -> Prop) (T : C -> B -> Prop) l l' :
  Forall2 R l l' -> (forall a b, In a l -> R a b -> exists c, S a c /\ T c b) -> exists l0, Forall2 S l l0 /\ Forall2 T l0 l'.
Proof.
  induction 1; intros HS; [exists []; auto|]. destruct IHForall2 as [l0 [F1 F2]]; [intros; apply HS; auto; now right|].
  destruct (HS x y (or_introl eq_refl) H) as [c [C1 C2]]. exists (c :: l0). auto.
Qed.

Lemma Forall3_combine {A B C} (R : A -> B -> C -> Prop) la lb lc : Forall3 R la lb lc ->
  Forall3 (fun a b c => R a b c /\ In (a, c) (combine la lc)) la lb lc.
Proof.
  induction 1; constructor; [split; auto; now left|].
  eapply Forall3_impl; [|exact IHForall3]. cbv beta. intros x y z [? ?]. split; auto. now right.
Qed.
Lemma concat_In {A B C} (R : A -> B -> list C -> Prop) la lb lc x : Forall3 R la lb lc -> In x (concat lc) ->
  exists a b c, R a b c /\ In (a, c) (combine la lc) /\ In x c.
Proof.
  induction 1; simpl; [easy|]. intros Hx. apply in_app_or in Hx as [Hx|Hx].
  - exists a, b, c. auto.
  - destruct (IHForall3 Hx) as [a' [b' [c' [? [? ?]]]]]. exists a', b', c'. auto.
Qed.
Lemma In_concat {A B C} (R : A -> B -> list C -> Prop) la lb lc (c : list C) : Forall3 R la lb lc -> In c lc -> forall x, In x c -> In x (concat lc).
Proof. intros _ Hc x Hx. apply in_concat. eauto. Qed.
Lemma combine_fun {A C D} (g : A -> D) (la : list A) (lc : list C) a b o o' : NoDup (map g la) ->
  In (a, o) (combine la lc) -> In (b, o') (combine la lc) -> g a = g b -> o = o'.
Proof.
  revert lc. induction la as [|x r IH]; intros [|y lc] ND H1 H2 E; simpl in *; try easy. inversion ND; subst.
  destruct H1 as [H1|H1], H2 as [H2|H2].
  - congruence.
  - injection H1 as -> ->. elim H3. rewrite E. apply in_map. eapply in_combine_l; eauto.
  - injection H2 as -> ->. elim H3. rewrite <- E. apply in_map. eapply in_combine_l; eauto.
  - eauto.
Qed.

Lemma NoDup_app_intro {A} (l l' : list A) : NoDup l -> NoDup l' -> (forall a, In a l -> ~ In a l') -> NoDup (l ++ l').
Proof.
  induction l; simpl; intros H1 H2 H3; auto. inversion H1; subst. constructor.
  - intros Hi. apply in_app_or in Hi as [Hi|Hi]; auto. exact (H3 a (or_introl eq_refl) Hi).
  - apply IHl; auto.
Qed.

(** * Equality of keys is symmetric *)
Definition keyval (v : pyval) : bool :=
  match v with
  | VBool _ | VInt _ | VFloat _ | VStr _ | VEnum _ _ | VInst _ _ | VDate _ _ => true
  | VSub _ u => scalar_val u
  | _ => false
  end.

Lemma Poscmp_antisym x y : CompOpp (Pos.compare_cont Eq x y) = Pos.compare_cont Eq y x.
Proof. change (CompOpp (Pos.compare x y) = Pos.compare y x). symmetry. apply Pos.compare_antisym. Qed.
Lemma SFeqb_sym x y : SFeqb x y = SFeqb y x.
Proof.
  unfold SFeqb. destruct x as [[]|[]| |[] mx ex], y as [[]|[]| |[] my ey]; simpl; try reflexivity.
  - rewrite (Z.compare_antisym ey ex). destruct (ey ?= ex)%Z eqn:E; simpl; try reflexivity.
    rewrite <- (Poscmp_antisym my mx). now destruct (Pos.compare_cont Eq my mx).
  - rewrite (Z.compare_antisym ey ex). destruct (ey ?= ex)%Z eqn:E; simpl; try reflexivity.
    rewrite <- (Poscmp_antisym my mx). now destruct (Pos.compare_cont Eq my mx).
Qed.
Lemma scal_eqb_sym a b : scal_eqb a b = scal_eqb b a.
Proof. destruct a, b; simpl; auto using Z.eqb_sym, SFeqb_sym, String.eqb_sym. Qed.

Lemma keyval_eqv_sym P a b : keyval a = true -> keyval b = true -> eqv P a b = eqv P b a.
Proof.
  intros A B. unfold eqv. destruct a; try discriminate A; destruct b; try discriminate B;
    cbn [py_eqb scalar]; repeat match goal with |- context [enum_scalar P ?c ?m] => destruct (enum_scalar P c m) end;
    repeat match goal with |- context [scalar ?e ?m] => destruct (scalar e m) end;
    try reflexivity; try (apply scal_eqb_sym);
    try (rewrite (String.eqb_sym c c0), (String.eqb_sym m m0); reflexivity);
    try (rewrite (String.eqb_sym k k0), (String.eqb_sym s s0); reflexivity).
Qed.

Lemma distinct_perm P l l' : Forall (fun v => keyval v = true) l -> Permutation l l' -> distinct P l -> distinct P l'.
Proof.
  unfold distinct. intros KV PM. revert KV. induction PM; intros KV D; auto.
  - inversion KV; subst. inversion D; subst. constructor; auto.
    rewrite <- PM. assumption.
  - inversion KV; subst. inversion H2; subst. inversion D; subst. inversion H6; subst. inversion H5; subst.
    constructor; [constructor; auto; now rewrite keyval_eqv_sym|]. constructor; auto.
  - apply IHPM2; auto. now rewrite <- PM1.
Qed.

Section Transport.
  Variables (P : program) (W : world).
  Variables (ord txt : bool) (seq : option seqkind).
  Notation NKEY := (nkey txt).
  Notation NORM := (Norm ord txt seq).
  Notation SAME := (same ord).
  Notation FMT := (fmt_ok txt P).

  Lemma norm_seq k l y : NORM (VSeq k l) y -> exists s l', y = VSeq s l' /\ Forall2 NORM l l' /\ (s = k \/ list_or_tuple s).
  Proof.
    intros H; inversion H; subst.
    - exists k, l. repeat split; auto. apply Forall2_same. apply Forall_forall. intros x _. now constructor.
    - discriminate.
    - exists k', l'. auto.
  Qed.
  Lemma norm_map l y : NORM (VMap MDict l) y -> exists l1 l', y = VMap MDict l' /\
    Forall2 (fun kv kv' => NKEY (fst kv) (fst kv') /\ NORM (snd kv) (snd kv')) l l1 /\ reordered ord l1 l'.
  Proof.
    intros H; inversion H; subst.
    - exists l, l. repeat split; [|now left]. apply Forall2_same. apply Forall_forall. intros x _. split; now constructor.
    - discriminate.
    - exists l1, l'. auto.
  Qed.
  Lemma norm_scalar x y : scalar_val x = true -> NORM x y -> y = x.
  Proof. intros S H; inversion H; subst; auto; discriminate. Qed.
  Lemma norm_sub c v y : NORM (VSub c v) y -> y = v \/ y = VSub c v.
  Proof. intros H; inversion H; subst; auto. Qed.
  Lemma norm_not_none x y : NORM x y -> x <> VNone -> y <> VNone.
  Proof. intros H Hx; inversion H; subst; auto; congruence. Qed.
  Lemma norm_inst x y : match x with VInst _ _ | VDate _ _ => True | _ => False end -> NORM x y -> y = x.
  Proof. intros S H; inversion H; subst; auto; contradiction. Qed.

  Lemma same_scalar v v' : keyval v = true -> SAME v v' -> v' = v.
  Proof. intros S H; inversion H; subst; auto; discriminate. Qed.
  Lemma same_none v' : SAME VNone v' -> v' = VNone.
  Proof. intros H; inversion H; subst; auto. Qed.
  Lemma same_none_r v : SAME v VNone -> v = VNone.
  Proof. intros H; inversion H; subst; auto. Qed.

  Lemma reordered_map {A B} (f : A -> B) l l' : reordered ord l l' -> reordered ord (map f l) (map f l').
  Proof. intros [->|[O PM]]; [now left|right]. split; auto. now apply Permutation_map. Qed.
  Lemma reordered_In {A} (l l' : list A) a : reordered ord l l' -> In a l <-> In a l'.
  Proof. intros [->|[O PM]]; [tauto|]. split; apply Permutation_in; auto. now symmetry. Qed.
  Lemma reordered_NoDup {A} (l l' : list A) : reordered ord l l' -> NoDup l -> NoDup l'.
  Proof. intros [->|[O PM]]; auto. now apply Permutation_NoDup. Qed.
  Lemma reordered_pull {A B} (R : A -> B -> Prop) l l1 l' : Forall2 R l l1 -> reordered ord l1 l' ->
    exists l0, reordered ord l l0 /\ Forall2 R l0 l'.
  Proof.
    intros F [->|[O PM]]; [exists l; split; auto; now left|].
    destruct (Forall2_perm_l R _ _ PM _ F) as [l0 [? ?]]. exists l0. split; auto. right. auto.
  Qed.
  Lemma reordered_trans {A} (a b c : list A) : reordered ord a b -> reordered ord b c -> reordered ord a c.
  Proof. intros [->|[O P1]] [->|[O' P2]]; unfold reordered; auto. right. split; auto. now transitivity b. Qed.

  (** ** String keyed mappings *)
  Definition str_keys (l : list (pyval * pyval)) : Prop := Forall (fun kv => exists s, fst kv = VStr s) l.

  Lemma eqv_str a b : eqv P (VStr a) (VStr b) = String.eqb a b.
  Proof. reflexivity. Qed.
  Lemma skey_In l k x : str_keys l -> NoDup (map fst l) -> In (VStr k, x) l -> skey P l k = Some x.
  Proof.
    unfold skey. induction l as [|[a b] r IH]; intros S ND Hi; [destruct Hi|]. inversion S; subst. destruct H1 as [s Hs]. cbn [fst] in Hs. subst a.
    cbn [map fst] in ND. inversion ND; subst. cbn [dget]. change (py_eqb (enum_scalar P) (VStr s) (VStr k)) with (String.eqb s k).
    destruct Hi as [Hi|Hi].
    - injection Hi as -> ->. now rewrite String.eqb_refl.
    - destruct (String.eqb_spec s k); [|now apply IH]. subst. elim H1. apply in_map_iff. exists (VStr k, x). auto.
  Qed.
  Lemma skey_None l k : str_keys l -> ~ In (VStr k) (map fst l) -> skey P l k = None.
  Proof.
    unfold skey. induction l as [|[a b] r IH]; intros S Hi; [reflexivity|]. inversion S; subst. destruct H1 as [s Hs]. cbn [fst] in Hs. subst a.
    cbn [dget]. change (py_eqb (enum_scalar P) (VStr s) (VStr k)) with (String.eqb s k). cbn [map fst] in Hi.
    destruct (String.eqb_spec s k); [|apply IH; auto; intros X; apply Hi; now right]. subst. elim Hi. now left.
  Qed.

  Lemma norm_str_keys l y : str_keys l -> NORM (VMap MDict l) y -> exists l1 l', y = VMap MDict l' /\ reordered ord l1 l' /\
    map fst l1 = map fst l /\ Forall2 (fun kv kv' => fst kv' = fst kv /\ NORM (snd kv) (snd kv')) l l1.
  Proof.
    intros S H. apply norm_map in H as [l1 [l' [-> [F R]]]]. exists l1, l'. split; auto. split; auto.
    assert (F' : Forall2 (fun kv kv' => fst kv' = fst kv /\ NORM (snd kv) (snd kv')) l l1).
    { pose proof (Forall2_Forall2_l _ _ _ _ S F) as F2. eapply Forall2_impl; [|exact F2]. cbv beta.
      intros a b Ha Hb [[s Hs] [N1 N2]]. rewrite Hs in *. split; auto. inversion N1; subst; auto. contradiction. }
    split; auto. symmetry. eapply Forall2_map_eq; [|exact F']. now intros a b [? _].
  Qed.
  Lemma norm_str_map l y : str_keys l -> NoDup (map fst l) -> NORM (VMap MDict l) y -> exists kvs, y = VMap MDict kvs /\
    str_keys kvs /\ NoDup (map fst kvs) /\
    (forall k x, In (VStr k, x) l -> exists z, NORM x z /\ skey P kvs k = Some z) /\
    (forall k, ~ In (VStr k) (map fst l) -> skey P kvs k = None) /\
    (forall kv, In kv kvs -> In (fst kv) (map fst l)).
  Proof.
    intros S ND H. apply norm_str_keys in H as [l1 [kvs [-> [R [E F]]]]]; auto. exists kvs. split; auto.
    assert (S1 : str_keys kvs).
    { unfold str_keys in *. rewrite Forall_forall in *. intros kv Hkv. apply (reordered_In _ _ _ R) in Hkv.
      destruct (Forall2_In_r _ _ _ _ F Hkv) as [a [Ha [Hb _]]]. rewrite Hb. auto. }
    assert (ND1 : NoDup (map fst kvs)).
    { eapply reordered_NoDup; [apply reordered_map; exact R|]. now rewrite E. }
    assert (KI : forall k, In k (map fst kvs) -> In k (map fst l)).
    { intros k Hk. rewrite <- E. now apply (reordered_In _ _ _ (reordered_map fst _ _ R)). }
    split; auto. split; auto. split; [|split].
    - intros k x Hx. destruct (Forall2_In_l _ _ _ _ F Hx) as [[k' z] [Hz [E1 N]]]. cbn [fst snd] in *. subst k'.
      exists z. split; auto. apply skey_In; auto. now apply (reordered_In _ _ _ R).
    - intros k Hk. apply skey_None; auto.
    - intros kv Hkv. apply KI. now apply in_map.
  Qed.
  Lemma first_key_none kvs ks : (forall k, In k ks -> skey P kvs k = None) -> first_key P kvs ks = None.
  Proof. induction ks; simpl; intros H; auto. rewrite H by now left. apply IHks. intros; apply H; now right. Qed.

  Lemma nkey_plain x y : txt = false -> scalar_val x = true -> NKEY x y -> y = x.
  Proof. intros T S N. inversion N; subst; auto; try congruence. discriminate. Qed.
  Lemma nkey_str s y : NKEY (VStr s) y -> y = VStr s.
  Proof. intros N. inversion N; subst; auto. contradiction. Qed.

  Lemma cases_on (b : bool) : b = true \/ b = false.
  Proof. destruct b; auto. Qed.

  (** ** Values *)
  Variables (reuse cv skip : bool).
  Variables (sk : bool) (Q : classdef -> Prop).
  Variables (reuse' hook : bool).
  Hypothesis IntText : txt = true -> forall z, w_int_of_str W (z_str z) = Some z.
  Hypothesis HReuse : reuse = true -> reuse' = true /\ txt = false.
  Hypothesis HSkip : skip = true -> sk = true.
  Hypothesis HQ : forall d, Q d -> class_fmt ord txt P hook d.
  Notation WT := (wt P W sk Q (survives ord txt seq)).
  Notation WIRE := (Wire P W reuse cv skip).
  Notation FWIRE := (FWire P W reuse cv skip).
  Notation ACC := (Acc P W reuse' hook).
  Notation FACC := (FAcc P W reuse' hook).

  Lemma wt_keyval t v : keyty t = true -> WT v t -> keyval v = true.
  Proof.
    revert v. induction t; intros v KT H; try discriminate KT; inversion H; subst; auto;
      try (match goal with H : prim_val ?p ?v = true |- _ => destruct p, v; try discriminate H; reflexivity end).
  Qed.
  Lemma keyval_hashable v : keyval v = true -> hashable P v = true.
  Proof. destruct v; simpl; intros; auto; discriminate. Qed.

  Lemma enum_member_In c e m x : get_enum P c = Some e -> enum_member P c m = Some x -> In (m, x) (e_members e).
  Proof. unfold enum_member. intros ->. apply slookup_In. Qed.

  (** Keys of mappings *)
  Lemma key_rt t : forall nm tg co k x y, tyok P W tg co t -> FMT hook t -> keyty t = true -> WT k t -> WIRE nm tg k t x -> NKEY x y ->
    (txt = true -> text_key P t = true) -> ACC nm tg k t y.
  Proof.
    assert (PR : forall p u y, prim_val p u = true -> (txt = true -> p = PStr) -> NKEY u y -> y = u).
    { intros p u y V TK N. destruct (cases_on txt) as [ET|ET].
      - rewrite (TK ET) in V. destruct u; try discriminate V. now apply nkey_str.
      - apply nkey_plain; auto. now apply (prim_val_scalar p). }
    induction t; intros nm tg co k0 x y T F KT Wv X N TK; try discriminate KT.
    - inversion Wv; subst. inversion X; subst.
      assert (y = x). { apply (PR p); auto. intros ET. specialize (TK ET). cbn [text_key] in TK. now destruct p. }
      subst. now constructor.
    - inversion Wv; subst. inversion X; subst.
      assert (HP : hook = true -> p <> PFloat). { intros E ->. specialize (F _ (sub_refl _)). cbn in F. congruence. }
      inversion N; subst.
      + constructor; auto.
      + assert (y = v). { apply (PR p); auto. intros ET. specialize (TK ET). cbn [text_key] in TK. now destruct p. }
        subst. constructor; auto.
      + contradiction.
    - inversion Wv; subst. inversion X; subst.
      assert (y = x). { apply (PR p); auto. intros ET. specialize (TK ET). cbn [text_key] in TK. now destruct p. }
      subst. now constructor.
    - apply wire_enum_inv in X as [m [-> M]]. cbn [tyok] in T. destruct T as [e [He [_ [Hs _]]]].
      pose proof (enum_member_In _ _ _ _ He M) as Hi. destruct (Hs _ _ Hi) as [Sx _].
      destruct (cases_on txt) as [ET|ET].
      + specialize (TK ET). cbn [text_key] in TK. rewrite He in TK. apply orb_prop in TK as [TK|TK]; rewrite forallb_forall in TK.
        * pose proof (TK _ Hi) as Hx. cbn [snd] in Hx. destruct x; try discriminate Hx. apply nkey_str in N. subst. now constructor.
        * pose proof (TK _ Hi) as Hx. cbn [snd] in Hx. destruct x; try discriminate Hx. inversion N; subst; try congruence; try contradiction.
          eapply A_enum_str; eauto. intros m' x' Hx'. specialize (TK _ Hx'). cbn [snd] in TK. destruct x'; try discriminate TK. eauto.
      + assert (y = x) by (apply nkey_plain; auto). subst. now constructor.
    - inversion Wv; subst. inversion X; subst. destruct (cases_on reuse) as [ER|ER]; rewrite ER in N.
      + destruct (HReuse ER) as [R1 R2]. inversion N; subst; [|congruence]. now apply A_str_inst.
      + apply nkey_str in N. subst. now constructor.
    - inversion Wv; subst. inversion X; subst. destruct (cases_on reuse) as [ER|ER]; rewrite ER in N.
      + destruct (HReuse ER) as [R1 R2]. inversion N; subst; [|congruence]. now apply A_date_inst.
      + apply nkey_str in N. subst. now constructor.
    - inversion Wv; subst. inversion X; subst. constructor. eapply IHt; eauto; [apply T|]. intros s Hs. apply F. now constructor.
  Qed.

  Lemma wire_union nm tg l v y : is_opt (TUnion l) = false -> WIRE nm tg v (TUnion l) y ->
    (exists t, In t l /\ is_class_ty t = false /\ WIRE true tg v t y) \/
    (exists c x, In (TClass c) l /\ WIRE true tg v (TClass c) x /\ tagged tg (typename P (TClass c)) x y).
  Proof.
    intros O X. inversion X; subst; try (cbn [is_opt] in O; match goal with E : is_none _ = false |- _ => rewrite E in O; discriminate O end);
      [left|right]; eauto 10.
  Qed.
  Lemma wire_opt nm tg a v y : is_none a = false -> WIRE nm tg v (TUnion [a; TNone]) y ->
    v = VNone /\ y = VNone \/ v <> VNone /\ WIRE nm tg v a y.
  Proof. intros Ha X. inversion X; subst; auto; cbn [is_opt] in *; rewrite Ha in *; discriminate. Qed.
  Lemma wt_opt a v : is_none a = false -> WT v (TUnion [a; TNone]) -> v = VNone \/ v <> VNone /\ nonnull P a = true /\ WT v a.
  Proof. intros Ha X. inversion X; subst; auto; cbn [is_opt] in *; rewrite Ha in *; discriminate. Qed.

  (** A value other than None is not written as None. *)
  Lemma wire_nonnull t : forall nm tg co v x, tyok P W tg co t -> nonnull P t = true -> WT v t -> WIRE nm tg v t x -> v <> VNone -> x <> VNone.
  Proof.
    induction t using pytype_ind'; intros nm tg co v x T NN Wv X Hv; cbn [tyok] in T; try contradiction;
      try (inversion X; subst; try (destruct reuse); try (destruct cv); auto; discriminate).
    - (* union *)
      destruct (is_opt (TUnion l)) eqn:O.
      + destruct (opt_shape l O) as [a [-> Ha]]. rewrite Ha in T.
        assert (HN : nonnull P a = true) by (cbn [nonnull forallb] in NN; now apply andb_prop in NN as [? _]).
        apply wire_opt in X as [[-> _]|[_ X]]; auto. apply wt_opt in Wv as [->|[_ [_ Wv]]]; auto.
        rewrite Forall_forall in H. eapply (H a (or_introl eq_refl)); eauto.
      + assert (U : union_ok P W tg l).
        { apply tyok_union with (co := co); auto. }
        apply wire_union in X as [[t [Ht [Hc X]]]|[c [x' [Hc [X Tg]]]]]; auto.
        * destruct U as [UA _]. rewrite Forall_forall in UA. specialize (UA _ Ht).
          destruct (arm_cases P t UA) as [[p ->]|[->|[[c [-> _]]|[B _]]]]; [| |discriminate|].
          -- inversion X; subst; auto.
          -- inversion X; subst; auto.
          -- intros ->. destruct t; try discriminate B; inversion X.
        * pose proof (union_tagged P W tg l c U Hc) as UT. destruct tg; cbn [tagged] in *; try congruence.
          destruct Tg as [l0 [_ ->]]. discriminate.
    - (* enum *) apply wire_enum_inv in X as [m [-> M]]. cbn [nonnull] in NN. destruct T as [e [He _]]. rewrite He in NN.
      pose proof (enum_member_In _ _ _ _ He M) as Hi. rewrite forallb_forall in NN. specialize (NN _ Hi). cbn [snd] in NN. intros ->. discriminate.
    - (* class *) inversion X; subst; try discriminate. cbn [nonnull] in NN.
      match goal with H1 : get_class P c = Some _, H2 : c_transparent _ = true |- _ => rewrite H1, H2 in NN; discriminate end.
    - inversion X; subst. inversion Wv; subst. eapply IHt; eauto. apply T.
  Qed.

  Lemma wt_counter' v a : WT v (TCounter a) -> exists l, v = VMap MCounter l /\
    Forall (fun kv => WT (fst kv) a /\ exists z, snd kv = VInt z) l /\ distinct P (map fst l).
  Proof. intros H; inversion H; subst; eauto. Qed.

  (** Well typed values pass the run time type check. *)
  Theorem wt_bear : forall n v, vsize v <= n -> forall t tg co, tyok P W tg co t -> WT v t -> bear P W v t = true.
  Proof.
    induction n; intros v Hn; [destruct v; simpl in Hn; lia|].
    assert (IH : forall u, vsize u < vsize v -> forall t tg co, tyok P W tg co t -> WT u t -> bear P W u t = true)
      by (intros; eapply IHn; eauto; lia).
    assert (IHl : forall k l a tg co, v = VSeq k l -> tyok P W tg co a -> Forall (fun x => WT x a) l ->
              match picked W v l with Some x => bear P W x a | None => true end = true).
    { intros k l a tg co -> T F. unfold picked. destruct (w_pick W (VSeq k l)); [|reflexivity].
      destruct (nth_opt l n0) eqn:E; [|reflexivity]. apply nth_opt_In in E. rewrite Forall_forall in F. eapply IH; eauto. now apply vsize_seq. }
    clear IHn. induction t using pytype_ind'; intros tg co T H1; cbn [tyok] in T; try contradiction; cbn [bear].
    - inversion H1; subst. now apply prim_val_inst.
    - inversion H1; subst. simpl. apply issub_refl.
    - inversion H1; subst. now apply prim_val_inst.
    - inversion H1; subst. reflexivity.
    - reflexivity.
    - rewrite existsb_exists. destruct (is_opt (TUnion l)) eqn:O.
      + destruct (opt_shape l O) as [a [-> Ha]]. rewrite Ha in T. destruct (wt_opt _ _ Ha H1) as [->|[_ [_ HA]]].
        * exists TNone. split; [right; now left|reflexivity].
        * exists a. split; [now left|]. rewrite Forall_forall in H. eapply (H a (or_introl eq_refl)); eauto.
      + destruct (wt_union_inv _ _ _ _ _ _ _ H1 O) as [t [Ht HW]]. exists t. split; auto.
        assert (U : union_ok P W tg l) by (apply tyok_union with (co := co); auto).
        destruct U as [UA _]. rewrite Forall_forall in UA. specialize (UA _ Ht).
        destruct (arm_cases P t UA) as [[p ->]|[->|[[c [-> _]]|[B [KT _]]]]].
        * inversion HW; subst. cbn [bear]. now apply prim_val_inst.
        * inversion HW; subst. reflexivity.
        * inversion HW; subst. cbn [bear named_inst]. unfold obj_isa. now rewrite String.eqb_refl.
        * rewrite Forall_forall in H. apply (H t Ht tg false); auto. now apply carrier_tyok.
    - inversion H1; subst. erewrite IHl; eauto. destruct k; reflexivity.
    - inversion H1; subst. erewrite IHl; [|reflexivity| |eassumption]; [destruct k; reflexivity|apply T].
    - inversion H1; subst. erewrite IHl; eauto.
    - apply wt_counter' in H1 as [l [-> [F _]]]. unfold picked. destruct (w_pick W _); [|reflexivity].
      destruct (nth_opt l n0) as [[a b]|] eqn:E; [|reflexivity].
      apply nth_opt_In in E. rewrite Forall_forall in F. eapply (IH a); [apply (vsize_map MCounter l (a, b) E)|apply T|exact (proj1 (F _ E))].
    - apply wt_dict_inv in H1 as [m [l [-> [D [F _]]]]]. destruct T as [T1 [T2 [T3 T4]]].
      assert (E0 : dict_inst k m = true). { destruct k; cbn [dict_kind] in D; subst; try reflexivity. destruct (factory_of t2); [subst; reflexivity|contradiction]. }
      rewrite E0. cbn [andb]. unfold picked. destruct (w_pick W _); [|reflexivity].
      destruct (nth_opt l n0) as [[a b]|] eqn:E; [|reflexivity].
      apply nth_opt_In in E. rewrite Forall_forall in F. destruct (F _ E) as [F1 F2]. cbn [fst snd] in *.
      rewrite (IH a (proj1 (vsize_map m l (a, b) E)) t1 tg co T2 F1), (IH b (proj2 (vsize_map m l (a, b) E)) t2 tg co T3 F2). reflexivity.
    - inversion H1; subst. rename l0 into vs.
      assert (IH' : forall u, In u vs -> forall t tg co, tyok P W tg co t -> WT u t -> bear P W u t = true)
        by (intros; eapply IH; eauto; now apply vsize_seq).
      destruct (tyok_tuple P W tg co l T) as [_ TT].
      assert (F : Forall2 (fun t x => WT x t) l vs) by assumption. clear -F IH' TT. induction F; [reflexivity|]. inversion TT; subst. apply andb_true_intro. split.
      + eapply IH'; eauto. now left.
      + apply IHF; auto. intros; eapply IH'; eauto. now right.
    - inversion H1; subst. erewrite IHl; eauto.
    - inversion H1; subst. destruct b; destruct v; try contradiction; destruct k; try contradiction;
        try (destruct k0); try contradiction; reflexivity.
    - inversion H1; subst; cbn [named_inst]; apply String.eqb_refl.
    - inversion H1; subst. cbn [named_inst]. unfold obj_isa. now rewrite String.eqb_refl.
    - inversion H1; subst. apply existsb_exists. exists x. split; auto.
      rewrite forallb_forall in T. rewrite (lit_eqv_refl P x) by auto. destruct x; try reflexivity.
      match goal with H : In _ l |- _ => discriminate (T _ H) end.
    - inversion H1; subst; cbn [named_inst]; apply issub_refl.
    - inversion H1; subst; cbn [named_inst]; apply issub_refl.
    - inversion H1; subst. eapply IHt; eauto. apply T.
  Qed.

  (** [v] is read back from its form. *)
  Definition RT (v : pyval) (t : pytype) : Prop := forall nm tg co x y,
    tyok P W tg co t -> FMT hook t -> (nm = false -> forall d, Q d -> tuple_class d) ->
    WT v t -> WIRE nm tg v t x -> NORM x y -> exists v', ACC nm tg v' t y /\ SAME v v'.

  (** Entries written for the fields *)
  Definition out_ok (d : classdef) (f : fielddef) (out : list (pyval * pyval)) : Prop :=
    NoDup (map fst out) /\ forall kv, In kv out -> exists k, fst kv = VStr k /\ In (Some k) (out_names P W d f).

  Lemma out_names_plain d f : f_flatten f = false -> out_names P W d f = [wire_name W d f].
  Proof. intros E. unfold out_names, kid. now rewrite E. Qed.
  Lemma entry_keys_plain d f : f_flatten f = false -> entry_keys P W d f = key_names W d f.
  Proof. intros E. unfold entry_keys, kid. now rewrite E. Qed.
  Lemma out_names_kid d f d' : kid P f = Some d' -> out_names P W d f = map (wire_name W d') (c_fields d').
  Proof. intros E. unfold out_names. now rewrite E. Qed.
  Lemma out_entry d f k : In (Some k) (out_names P W d f) -> In k (entry_keys P W d f).
  Proof.
    unfold out_names, entry_keys. destruct (kid P f) as [d'|].
    - intros H. apply in_map_iff in H as [g [E Hg]]. apply in_concat. exists (key_names W d' g). split; [now apply in_map|].
      unfold key_names. rewrite E. now left.
    - intros [E|[]]. unfold key_names. rewrite E. now left.
  Qed.

  Lemma outs_keys d fs attrs outs : Forall3 (fun f (_ : string * pyval) out => out_ok d f out) fs attrs outs ->
    NoDup (concat (map (out_names P W d) fs)) -> NoDup (map fst (concat outs)).
  Proof.
    induction 1 as [|f nv out fs attrs outs [O1 O2] F IH]; intros ND; simpl; [constructor|]. cbn [map concat] in ND.
    apply NoDup_app_inv in ND as [_ [ND1 ND2]]. rewrite map_app. apply NoDup_app_intro; auto.
    intros k Hk Hk'. apply in_map_iff in Hk as [kv [<- Hk]]. destruct (O2 _ Hk) as [k [E Hn]].
    apply in_map_iff in Hk' as [kv' [Ek Hk']]. destruct (concat_In _ _ _ _ _ F Hk') as [g [nv' [out' [[_ Ho] [Hc Hin]]]]].
    destruct (Ho _ Hin) as [k' [E' Hn']]. assert (k' = k) by congruence. subst k'. apply (ND2 _ Hn).
    apply in_concat. exists (out_names P W d g). split; auto. apply in_map. eapply in_combine_l; eauto.
  Qed.

  Lemma NoDup_concat_in {A B} (F : A -> list B) l a : NoDup (concat (map F l)) -> In a l -> NoDup (F a).
  Proof.
    induction l as [|b l IH]; [easy|]. cbn [map concat]. intros ND Ha. apply NoDup_app_inv in ND as [N1 [N2 _]]. destruct Ha as [->|Ha]; auto.
  Qed.
  Lemma NoDup_concat_fun {A B} (F : A -> list B) l a b x : NoDup (concat (map F l)) -> In a l -> In b l -> In x (F a) -> In x (F b) -> a = b.
  Proof.
    induction l as [|e l IH]; [easy|]. cbn [map concat]. intros ND Ha Hb Fa Fb. apply NoDup_app_inv in ND as [_ [N2 N3]].
    destruct Ha as [->|Ha], Hb as [->|Hb]; auto.
    - elim (N3 _ Fa). apply in_concat. exists (F b). split; auto. now apply in_map.
    - elim (N3 _ Fb). apply in_concat. exists (F a). split; auto. now apply in_map.
  Qed.

  Lemma is_none_val (v : pyval) : v = VNone \/ v <> VNone.
  Proof. destruct v; auto; right; discriminate. Qed.

  Lemma wire_obj_inv tg c attrs x d : get_class P c = Some d -> c_transparent d = false -> WIRE true tg (VObj c attrs) (TClass c) x ->
    exists outs, x = VMap MDict (concat outs) /\
    Forall3 (fun f nv out =>
          (written f = false /\ out = []) \/
          (written f = true /\ f_flatten f = false /\ exists k x, wire_name W d f = Some k /\ FWIRE true d f (snd nv) x /\
             match drops P d f x with
             | Some r => exists b, r = Ok b /\ out = if (b : bool) then [] else [(VStr k, x)]
             | None => skip = true /\ x = VNone /\ out = [] \/ (skip = false \/ x <> VNone) /\ out = [(VStr k, x)]
             end) \/
          (f_flatten f = true /\ exists d' c' attrs' l, kid P f = Some d' /\ snd nv = VObj c' attrs' /\
             Forall3 (fun g nv' kv => exists k x, wire_name W d' g = Some k /\ WIRE true (c_tagging d) (snd nv') (f_type g) x /\
                kv = (VStr k, x)) (c_fields d') attrs' l /\
             (skip = true /\ map snd l = [VNone] /\ out = [] \/ (skip = false \/ map snd l <> [VNone]) /\ out = l)))
          (c_fields d) attrs outs.
  Proof. intros Hd Ht H. inversion H; subst; rewrite Hd in *; match goal with E : Some _ = Some _ |- _ => injection E as <- end; [eauto|congruence]. Qed.

  Lemma skey_filter p kvs k : (forall kv, In kv kvs -> fst kv = VStr k -> p kv = true) -> str_keys kvs ->
    skey P (filter p kvs) k = skey P kvs k.
  Proof.
    unfold skey. intros H S. induction S as [|[a b] r [s Hs] S IH]; [reflexivity|]. cbn [fst] in Hs. subst a.
    cbn [filter dget]. change (py_eqb (enum_scalar P) (VStr s) (VStr k)) with (String.eqb s k).
    destruct (String.eqb s k) eqn:E.
    - apply String.eqb_eq in E. subst s. rewrite (H (VStr k, b)) by (try reflexivity; now left). cbn [dget].
      change (py_eqb (enum_scalar P) (VStr k) (VStr k)) with (String.eqb k k). now rewrite String.eqb_refl.
    - rewrite <- IH by (intros; apply H; auto; now right). destruct (p (VStr s, b)); [|reflexivity]. cbn [dget].
      change (py_eqb (enum_scalar P) (VStr s) (VStr k)) with (String.eqb s k). now rewrite E.
  Qed.

  (** A flattened object is read back from the entries kept for it *)
  Lemma kid_rt d c d' attrs l kvs :
    (forall u, vsize u < vsize (VObj c attrs) -> forall t, RT u t) ->
    get_class P c = Some d' -> Forall (kid_field_ok P W d d') (c_fields d') -> c_transparent d' = false -> c_tagging d' = c_tagging d ->
    WT (VObj c attrs) (TClass c) -> str_keys kvs ->
    (c_deny d' = true -> forall kv, In kv (kid_data P W d d' kvs) -> exists k, In k (all_keys P W d') /\ eqv P (VStr k) (fst kv) = true) ->
    Forall3 (fun g nv' kv => exists k x, wire_name W d' g = Some k /\ WIRE true (c_tagging d) (snd nv') (f_type g) x /\ kv = (VStr k, x)) (c_fields d') attrs l ->
    (forall k x, In (VStr k, x) l -> (exists z, NORM x z /\ skey P kvs k = Some z) \/ skip = true /\ x = VNone /\ skey P kvs k = None) ->
    exists attrs', ACC true (c_tagging d) (VObj c attrs') (TClass c) (VMap MDict (kid_data P W d d' kvs)) /\ SAME (VObj c attrs) (VObj c attrs').
  Proof.
    intros IH Hd KF Ht Tg HW SK DN FL HL. apply wt_obj_inv in HW as [d2 [Hd2 [F [HQd [FF Hpost]]]]]. rewrite Hd in Hd2. injection Hd2 as <-.
    rewrite Forall_forall in KF.
    assert (SF : forall g k, In g (c_fields d') -> wire_name W d' g = Some k -> skey P (kid_data P W d d' kvs) k = skey P kvs k).
    { intros g k Hg Hk. apply skey_filter; auto. intros kv _ E. rewrite E. apply orb_true_iff. left. apply existsb_exists. exists k. split.
      - unfold all_keys. apply in_concat. exists (entry_keys P W d' g). split; [now apply in_map|]. destruct (KF g Hg) as (_ & Hf & _).
        rewrite entry_keys_plain by auto. unfold key_names. rewrite Hk. now left.
      - rewrite eqv_str. apply String.eqb_refl. }
    assert (CH : exists attrs', Forall3 (fun f nv nv' => fst nv' = f_name f /\ fst nv' = fst nv /\ SAME (snd nv) (snd nv') /\
          (read f = false /\ dflt f = Some (Ok (snd nv')) \/
           read f = true /\
           ((f_flatten f = false /\ exists x, first_key P (kid_data P W d d' kvs) (key_names W d' f) = Some x /\ FACC true d' f (snd nv') x) \/
            (f_flatten f = false /\ first_key P (kid_data P W d d' kvs) (key_names W d' f) = None /\ absent_ok f (snd nv') /\ bear P W (snd nv') (f_type f) = true) \/
            (f_flatten f = true /\ exists d2, kid P f = Some d2 /\
               ACC true (c_tagging d') (snd nv') (f_type f) (VMap MDict (kid_data P W d' d2 (kid_data P W d d' kvs))))))) (c_fields d') attrs attrs').
    { pose proof (Forall3_In _ _ _ _ (Forall3_Forall2_and _ _ _ _ _ FL FF)) as FA.
      eapply Forall3_choice; [exact FA|]. cbv beta.
      intros g nv kv [[[k [x [Hk [X ->]]]] [A1 [A2 [A3 [A4 [A5 _]]]]]] [Hg [Hnv Hkv]]].
      destruct (KF g Hg) as (_ & Hf & Hw & Hr & Ha & _ & _ & TY & _ & NS). rewrite Hw, Hr in *. cbn [orb] in A2. pose proof (unpaired P W d' g F Hg NS) as ND'.
      assert (KN : key_names W d' g = [k]) by (unfold key_names; now rewrite Hk, Ha).
      destruct (HL k x Hkv) as [[z [Nz Hz]]|[Sk [-> Hz]]].
      - destruct (IH (snd nv) (vsize_obj c attrs nv Hnv) (f_type g) true (c_tagging d) (coerces d) x z) as [v' [V1 V2]]; auto.
        { apply (proj1 (HQ d' HQd) g Hg). rewrite Hr. apply orb_true_r. }
        { discriminate. }
        exists (f_name g, v'). cbn [fst snd]. split; auto. split; auto. split; auto. right. split; auto. left. split; auto. exists z. split; [|left; rewrite Tg; auto].
        rewrite KN. cbn [first_key]. rewrite (SF g k Hg Hk), Hz. reflexivity.
      - destruct (A5 (HSkip Sk) eq_refl eq_refl Ht) as [B1 B2]. exists nv. split; auto. split; auto. split; [constructor|]. right. split; auto. right. left. split; auto.
        split; [rewrite KN; cbn [first_key]; rewrite (SF g k Hg Hk), Hz; reflexivity|]. split.
        + apply B2. destruct (is_none_val (snd nv)) as [Hn|Hn]; auto. elim (wire_nonnull _ _ _ _ _ _ TY B1 (A2 eq_refl) X Hn). reflexivity.
        + eapply wt_bear; [apply le_n|exact TY|auto]. }
    destruct CH as [attrs' FA']. exists attrs'.
    assert (SM : SAME (VObj c attrs) (VObj c attrs')).
    { constructor. eapply Forall3_23; [|exact FA']. cbv beta. intros f nv nv' (_ & ? & ? & _). auto. }
    split; auto. apply (A_obj P W reuse' hook (c_tagging d) c d' attrs'); auto.
    - intros HD kv Hkv. destruct (DN HD kv Hkv) as [k [Hk E]]. unfold all_keys in Hk. apply in_concat in Hk as [ks [Hks Hk]].
      apply in_map_iff in Hks as [g [<- Hg]]. eauto.
    - eapply Forall3_13; [|exact FA']. cbv beta. intros f nv nv' (? & _ & _ & ?). auto.
    - apply (proj2 (HQ d' HQd) _ _ SM Hpost).
  Qed.

  Lemma obj_map c attrs d tg tg' l extra y :
    (forall u, vsize u < vsize (VObj c attrs) -> forall t, RT u t) ->
    get_class P c = Some d -> WT (VObj c attrs) (TClass c) -> c_transparent d = false ->
    WIRE true tg (VObj c attrs) (TClass c) (VMap MDict l) ->
    (extra = [] \/ c_deny d = false /\ exists tag name, extra = [(VStr tag, VStr name)] /\ forall f, In f (c_fields d) -> ~ In tag (entry_keys P W d f)) ->
    NORM (VMap MDict (l ++ extra)) y ->
    exists attrs' kvs, y = VMap MDict kvs /\ ACC true tg' (VObj c attrs') (TClass c) y /\ SAME (VObj c attrs) (VObj c attrs') /\
      (forall tag name, In (VStr tag, VStr name) extra -> skey P kvs tag = Some (VStr name)).
  Proof.
    intros IH Hd HW Ht X HE N. apply wt_obj_inv in HW as [d' [Hd' [F [HQd [FF Hpost]]]]]. rewrite Hd in Hd'. injection Hd' as <-.
    apply (wire_obj_inv _ _ _ _ d) in X as [outs [E FO]]; auto. injection E as ->.
    pose proof F as F'. destruct F' as (K1 & K2 & K3 & K4 & K5 & K6 & K7 & K8 & K9 & K10 & K11 & K12 & K13 & K14).
    assert (FO' : Forall3 (fun f (_ : string * pyval) out => out_ok d f out) (c_fields d) attrs outs).
    { eapply Forall3_impl; [|exact (Forall3_In _ _ _ _ FO)]. cbv beta.
      intros f nv out [[[_ ->]|[[Hw [Hfl [k [x [Hk [_ RO]]]]]]|[Hfl [d' [c' [attrs' [l [Hkid [_ [FL [[_ [_ ->]]|[_ ->]]]]]]]]]]]] [Hf _]].
      1,3: split; [constructor|easy].
      - apply rule_out in RO as [->| ->]; [split; [constructor|easy]|].
        split; [repeat constructor; easy|]. intros kv [<-|[]]. exists k. rewrite out_names_plain by auto. split; auto. rewrite Hk. now left.
      - assert (EL : map fst l = map (fun g => match wire_name W d' g with Some k => VStr k | None => VNone end) (c_fields d')).
        { clear -FL. induction FL as [|g nv' kv ? ? ? [k [x [Hk [_ ->]]]] _ IHF]; [reflexivity|]. cbn [map fst]. now rewrite Hk, IHF. }
        pose proof (NoDup_concat_in _ _ _ K8 Hf) as ND. rewrite (out_names_kid _ _ _ Hkid) in ND. split.
        + rewrite EL. clear -ND. induction (c_fields d') as [|g r IHr]; [constructor|]. cbn [map] in *. inversion ND as [|? ? N1 N2]; subst.
          constructor; auto. intros Hi. apply N1. apply in_map_iff in Hi as [g' [Eg Hg']]. apply in_map_iff. exists g'. split; auto.
          destruct (wire_name W d' g), (wire_name W d' g'); congruence.
        + intros kv Hkv. destruct (Forall3_in _ _ _ _ _ FL Hkv) as [g [nv' [Hg [k [x [Hk [_ ->]]]]]]]. exists k. split; auto.
          rewrite (out_names_kid _ _ _ Hkid), <- Hk. now apply in_map. }
    pose proof (outs_keys _ _ _ _ FO' K8) as ND0.
    assert (KEYS : forall k, In (VStr k) (map fst (concat outs)) -> exists f out, In f (c_fields d) /\ In (Some k) (out_names P W d f) /\ In (f, out) (combine (c_fields d) outs) /\ In (VStr k) (map fst out)).
    { intros k Hk. apply in_map_iff in Hk as [[k' x'] [Ek Hk]]. cbn [fst] in Ek. subst k'.
      destruct (concat_In _ _ _ _ _ FO' Hk) as [f [nv [out [[_ Ho] [Hc Hin]]]]].
      destruct (Ho _ Hin) as [k1 [E1 Hn]]. cbn [fst] in E1. injection E1 as <-.
      exists f, out. split; [eapply in_combine_l; eauto|]. split; auto. split; auto. apply in_map_iff. eexists. split; [|exact Hin]. reflexivity. }
    assert (EX : forall k, In (VStr k) (map fst extra) -> forall f, In f (c_fields d) -> ~ In k (entry_keys P W d f)).
    { intros k Hk f Hf. destruct HE as [->|[_ [tag [name [-> HT]]]]]; [easy|]. destruct Hk as [Hk|[]]. cbn [fst] in Hk. injection Hk as ->. auto. }
    assert (SK : str_keys (concat outs ++ extra)).
    { apply Forall_app. split.
      - apply Forall_forall. intros kv Hkv. destruct (concat_In _ _ _ _ _ FO' Hkv) as [f [nv [out [[_ Ho] [Hc Hin]]]]].
        destruct (Ho _ Hin) as [k [E1 _]]. exists k. exact E1.
      - destruct HE as [->|[_ [tag [name [-> _]]]]]; [constructor|]. constructor; [exists tag; reflexivity|constructor]. }
    assert (ND : NoDup (map fst (concat outs ++ extra))).
    { rewrite map_app. destruct HE as [->|[_ [tag [name [-> HT]]]]]; [now rewrite app_nil_r|].
      apply NoDup_app_intro; auto; [repeat constructor; easy|]. intros k Hk [<-|[]].
      destruct (KEYS _ Hk) as [f [x [Hf [Hw _]]]]. apply (HT f Hf). now apply out_entry. }
    apply norm_str_map in N as [kvs [-> [S1 [N1 [L1 [L2 L3]]]]]]; auto.
    assert (CH : exists attrs', Forall3 (fun f nv nv' => fst nv' = f_name f /\ fst nv' = fst nv /\ SAME (snd nv) (snd nv') /\
          (read f = false /\ dflt f = Some (Ok (snd nv')) \/
           read f = true /\
           ((f_flatten f = false /\ exists x, first_key P kvs (key_names W d f) = Some x /\ FACC true d f (snd nv') x) \/
            (f_flatten f = false /\ first_key P kvs (key_names W d f) = None /\ absent_ok f (snd nv') /\ bear P W (snd nv') (f_type f) = true) \/
            (f_flatten f = true /\ exists d', kid P f = Some d' /\
               ACC true (c_tagging d) (snd nv') (f_type f) (VMap MDict (kid_data P W d d' kvs)))))) (c_fields d) attrs attrs').
    { pose proof (Forall3_In _ _ _ _ (Forall3_combine _ _ _ _ (Forall3_Forall2_and _ _ _ _ _ FO FF))) as FA.
      eapply Forall3_choice; [exact FA|]. cbv beta.
      intros f nv out [[[RO [A1 [A2 [A3 [A4 [A5 [A6 A7]]]]]]] Hc] [Hf [Hnv Hout]]].
      rewrite Forall_forall in K7. pose proof (K7 f Hf) as [(_ & _ & _ & TY & [k0 [Hk0 _]] & _ & AL & _) FLAT].
      assert (AB1 : out = [] -> forall k, In (Some k) (out_names P W d f) -> skey P kvs k = None).
      { intros -> k Hk. apply L2. rewrite map_app. intros Hin. apply in_app_or in Hin as [Hin|Hin]; [|exact (EX _ Hin f Hf (out_entry _ _ _ Hk))].
        destruct (KEYS _ Hin) as [g [out' [Hg [Hwg [Hcg Hko]]]]]. assert (f = g) by (eapply (NoDup_concat_fun (out_names P W d)); eauto). subst g.
        assert ([] = out') by (eapply (combine_fun f_name); eauto). subst out'. easy. }
      assert (ABS : f_flatten f = false -> out = [] -> first_key P kvs (key_names W d f) = None).
      { intros Hfl Ho. apply first_key_none. intros k Hk. pose proof Hk as Hk'. unfold key_names in Hk. rewrite Hk0 in Hk. destruct Hk as [<-|Hk].
        - apply AB1; auto. rewrite out_names_plain by auto. rewrite Hk0. now left.
        - apply L2. rewrite map_app. intros Hin. apply in_app_or in Hin as [Hin|Hin].
          + destruct (KEYS _ Hin) as [g [out' [Hg [Hwg _]]]]. exact (K9 f g k Hf Hg Hk Hwg).
          + apply (EX _ Hin f Hf). now rewrite entry_keys_plain. }
      destruct (read f) eqn:ER.
      2:{ exists nv. split; auto. split; auto. split; [constructor|]. left. auto. }
      rewrite orb_true_r in *.
      destruct (f_flatten f) eqn:EF.
      { (* flattened *)
        destruct (FLAT eq_refl) as (c1 & d1 & G1 & G2 & G3 & G4 & G5 & G6 & G7 & G8 & G9 & G10 & G11 & G12 & _).
        assert (KID : kid P f = Some d1) by (unfold kid; now rewrite EF, G1).
        destruct RO as [[Hw _]|[[_ [E _]]|[_ [d' [c' [attrs0 [l0 [Hk [Ev [FL RO]]]]]]]]]]; [congruence|discriminate|].
        rewrite KID in Hk. injection Hk as <-. pose proof (A2 eq_refl) as WV. rewrite Ev, G1 in WV.
        assert (c' = c1) by (inversion WV; auto). subst c'.
        destruct (kid_rt d c1 d1 attrs0 l0 kvs) as [attrs1 [V1 V2]]; auto.
        - intros u Hu. apply IH. pose proof (vsize_obj c attrs nv Hnv) as Hs. rewrite Ev in Hs. lia.
        - intros HD kv Hkv. unfold kid_data in Hkv. apply filter_In in Hkv as [Hkv P1]. specialize (G9 HD).
          destruct HE as [->|[HD' _]]; [|congruence]. rewrite app_nil_r in *.
          specialize (L3 kv Hkv). unfold str_keys in S1. rewrite Forall_forall in S1. destruct (S1 kv Hkv) as [k Hk]. rewrite Hk in *.
          destruct (KEYS _ L3) as [g [out' [Hg [Hw _]]]]. apply orb_prop in P1 as [P1|P1].
          + unfold one_of in P1. apply existsb_exists in P1 as [k' [Hk' E']]. eauto.
          + exfalso. apply negb_true_iff in P1. apply not_true_iff_false in P1. apply P1. unfold one_of. apply existsb_exists. exists k. split.
            * unfold all_keys. apply in_concat. exists (entry_keys P W d g). split; [now apply in_map|now apply out_entry].
            * rewrite eqv_str. apply String.eqb_refl.
        - intros k x Hkx. destruct RO as [[Sk [El ->]]|[_ ->]].
          + right. assert (x = VNone) by (apply (in_map snd) in Hkx; rewrite El in Hkx; destruct Hkx as [E|[]]; auto). subst x. split; auto. split; auto.
            apply AB1; auto. rewrite (out_names_kid _ _ _ KID). destruct (Forall3_in _ _ _ _ _ FL Hkx) as [g [nv' [Hg [k' [x' [Hk' [_ E']]]]]]].
            injection E' as -> _. rewrite <- Hk'. now apply in_map.
          + left. apply L1. apply in_or_app. left. apply in_concat. eauto.
        - exists (f_name f, VObj c1 attrs1). cbn [fst snd]. split; auto. split; auto. split; [now rewrite Ev|]. right. split; auto. right. right. split; auto.
          exists d1. split; auto. now rewrite G1. }
      assert (NOCH : out = [] -> absent_ok f (snd nv) -> exists b', fst b' = f_name f /\ fst b' = fst nv /\ SAME (snd nv) (snd b') /\
          (true = false /\ dflt f = Some (Ok (snd b')) \/
           true = true /\
           ((false = false /\ exists x, first_key P kvs (key_names W d f) = Some x /\ FACC true d f (snd b') x) \/
            (false = false /\ first_key P kvs (key_names W d f) = None /\ absent_ok f (snd b') /\ bear P W (snd b') (f_type f) = true) \/
            (false = true /\ exists d', kid P f = Some d' /\
               ACC true (c_tagging d) (snd b') (f_type f) (VMap MDict (kid_data P W d d' kvs)))))).
      { intros Ho Ha. exists nv. split; auto. split; auto. split; [constructor|]. right. split; auto. right. left. split; auto. split; [now apply ABS|]. split; auto.
        eapply wt_bear; [apply le_n|apply TY; auto|auto]. }
      destruct RO as [[Hw ->]|[[Hw [_ [k [x [Hk [X RO]]]]]]|[E _]]]; [apply NOCH; auto| |discriminate].
      assert (CO : (exists x', coded f (snd nv) x' /\ x' = x) -> f_serializer f <> None -> scalar_val x = true /\ decoded f x (snd nv) /\ (sk = true -> x = VNone -> absent_ok f (snd nv))).
      { intros [x' [[g [C1 C2]] ->]] NS. destruct (A7 Hw NS) as (x' & B1 & [g' [C1' C2']] & B2). rewrite C1 in C1'. injection C1' as <-.
        assert (x' = x) by congruence. subst x'. split; auto. }
      assert (RO' : (out = [] /\ absent_ok f (snd nv)) \/ (skip = true /\ x = VNone /\ out = []) \/ out = [(VStr k, x)]).
      { pose proof (A6 Hw Ht _ _ _ _ X) as SS. destruct (drops P d f x) as [r|].
        - destruct SS as [b [-> SS]]. destruct RO as [b' [Eb ->]]. injection Eb as <-. destruct b; auto.
        - destruct RO as [RO|[_ ->]]; auto. }
      destruct RO' as [[-> AO]|[[Sk [-> ->]]| ->]].
      - apply NOCH; auto.
      - destruct X as [[_ X']|X'].
        2:{ destruct CO as (_ & _ & C3); [eauto|destruct X' as [g [C1 _]]; congruence|]. apply NOCH; auto. }
        destruct (A5 (HSkip Sk) eq_refl Hw Ht) as [B1 B2]. apply NOCH; auto. apply B2.
        destruct (is_none_val (snd nv)) as [Hn|Hn]; auto. elim (wire_nonnull _ _ _ _ _ _ (TY eq_refl) B1 (A2 eq_refl) X' Hn). reflexivity.
      - destruct (L1 k x) as [z [Nz Hz]].
        { apply in_or_app. left. apply in_concat. exists [(VStr k, x)]. split; auto. now left. }
        destruct X as [[NS X']|X'].
        2:{ destruct CO as (C1 & C2 & _); [eauto|destruct X' as [g [C1 _]]; congruence|]. apply norm_scalar in Nz; [|exact C1]. subst z.
          exists nv. split; auto. split; auto. split; [constructor|]. right. split; auto. left. split; auto. exists x.
          split; [unfold key_names; rewrite Hk; cbn [first_key]; now rewrite Hz|]. right. split; auto. eapply wt_bear; [apply le_n|apply TY; auto|auto]. }
        destruct (IH (snd nv) (vsize_obj c attrs nv Hnv) (f_type f) true (c_tagging d) (coerces d) x z) as [v' [V1 V2]]; auto.
        { apply (proj1 (HQ d HQd) f Hf). rewrite ER. apply orb_true_r. }
        { discriminate. }
        exists (f_name f, v'). cbn [fst snd]. split; auto. split; auto. split; auto. right. split; auto. left. split; auto. exists z.
        split; [unfold key_names; rewrite Hk; cbn [first_key]; now rewrite Hz|]. left. split; auto. exact (unpaired P W d f F Hf NS). }
    destruct CH as [attrs' FA']. exists attrs', kvs. split; auto.
    assert (SM : SAME (VObj c attrs) (VObj c attrs')).
    { constructor. eapply Forall3_23; [|exact FA']. cbv beta. intros f nv nv' (_ & ? & ? & _). auto. }
    split; [|split; auto].
    - apply (A_obj P W reuse' hook tg' c d attrs' kvs); auto.
      + intros HD kv Hkv. destruct HE as [->|[HD' _]]; [|congruence]. rewrite app_nil_r in *.
        specialize (L3 kv Hkv). unfold str_keys in S1. rewrite Forall_forall in S1. destruct (S1 kv Hkv) as [k Hk]. rewrite Hk in *.
        destruct (KEYS _ L3) as [f [out [Hf [Hw _]]]]. exists f, k. split; auto. split; [now apply out_entry|]. rewrite eqv_str. apply String.eqb_refl.
      + eapply Forall3_13; [|exact FA']. cbv beta. intros f nv nv' (? & _ & _ & ?). auto.
      + apply (proj2 (HQ d HQd) _ _ SM Hpost).
    - intros tag name Ht'. destruct (L1 tag (VStr name)) as [z [Nz Hz]]; [apply in_or_app; now right|].
      apply norm_scalar in Nz; [|reflexivity]. now subst.
  Qed.

  Lemma fmt_sub t t' : FMT hook t -> (forall s, sub_ty s t' -> sub_ty s t) -> FMT hook t'.
  Proof. intros F H s Hs. now apply F, H. Qed.

  Lemma obj_rt c attrs : (forall u, vsize u < vsize (VObj c attrs) -> forall t, RT u t) -> RT (VObj c attrs) (TClass c).
  Proof.
    intros IH nm tg co x y _ _ HT HW X N.
    pose proof HW as HW'. apply wt_obj_inv in HW' as [d [Hd [F [HQd [FF Hpost]]]]].
    pose proof F as F'. destruct F' as (K1 & K2 & K3 & K4 & K5 & K6 & K7 & K8 & K9 & K10 & K11 & K12 & K13 & K14).
    destruct (c_transparent d) eqn:Ht.
    - (* transparent *)
      destruct (K14 eq_refl) as [f [Ef [Hw [Hr [Hfl _]]]]].
      assert (XX : exists n v, attrs = [(n, v)] /\ n = f_name f /\ WIRE nm (c_tagging d) v (f_type f) x).
      { inversion X; subst; rewrite Hd in *; match goal with E : Some _ = Some _ |- _ => injection E as <- end; try congruence.
        match goal with E : c_fields d = [_] |- _ => rewrite Ef in E; injection E as <- end. eauto 10. }
      destruct XX as [n [v [-> [Hn X']]]]. rewrite Ef in FF. inversion FF as [|? ? ? ? A FF']; subst. inversion FF'; subst.
      destruct A as (_ & A2 & _). cbn [snd] in A2. rewrite Hw in A2.
      assert (Hf : In f (c_fields d)) by (rewrite Ef; now left).
      rewrite Forall_forall in K7. pose proof (K7 f Hf) as [(_ & _ & _ & TY & _) _]. rewrite Hw in TY.
      assert (FM : FMT hook (f_type f)) by (apply (proj1 (HQ d HQd) f Hf); now rewrite Hw).
      destruct (IH v (vsize_obj c [(f_name f, v)] (f_name f, v) (or_introl eq_refl)) (f_type f) nm (c_tagging d) (coerces d) x y (TY eq_refl) FM HT (A2 eq_refl) X' N) as [v' [V1 V2]].
      cbn [snd] in V2. assert (SM : SAME (VObj c [(f_name f, v)]) (VObj c [(f_name f, v')])) by (constructor; constructor; [split; auto|constructor]).
      exists (VObj c [(f_name f, v')]). split; auto. apply (A_obj_transparent P W reuse' hook nm tg c d f); auto.
      apply (proj2 (HQ d HQd) _ _ SM Hpost).
    - destruct nm.
      + (* mapping *)
        assert (XX : exists l, x = VMap MDict l) by (destruct (wire_obj_inv _ _ _ _ _ Hd Ht X) as [outs [-> _]]; eauto).
        destruct XX as [l ->]. destruct (obj_map c attrs d tg tg l [] y) as [attrs' [kvs [-> [A1 [A2 _]]]]]; auto.
        { now rewrite app_nil_r. }
        eauto.
      + (* tuple *)
        assert (XX : exists outs, x = VSeq KTuple (concat outs) /\ Forall3 (fun f nv out =>
          (written f = false /\ out = []) \/
          (written f = true /\ f_flatten f = false /\ exists x, FWIRE false d f (snd nv) x /\ out = [x]) \/
          f_flatten f = true) (c_fields d) attrs outs).
        { inversion X; subst; rewrite Hd in *; match goal with E : Some _ = Some _ |- _ => injection E as <- end; try congruence.
          eexists. split; [reflexivity|]. eapply Forall3_impl; [|eassumption]. cbv beta. intros f nv out [?|[?|[? _]]]; auto. }
        destruct XX as [outs [-> FO]]. pose proof (HT eq_refl d HQd) as TC.
        apply norm_seq in N as [s [l' [-> [NL HS]]]]. assert (HS' : s = KList \/ s = KTuple) by (destruct HS as [->|HS]; auto).
        assert (GO : exists attrs', Forall3 (fun f nv x => fst nv = f_name f /\ FACC false d f (snd nv) x) (c_fields d) attrs' l' /\
                  Forall2 (fun nv nv' => fst nv' = fst nv /\ SAME (snd nv) (snd nv')) attrs attrs').
        { assert (FA : Forall3 (fun f nv out => fst nv = f_name f /\ exists x, out = [x] /\ forall y, NORM x y -> exists v', FACC false d f v' y /\ SAME (snd nv) v') (c_fields d) attrs outs).
          { eapply Forall3_impl; [|exact (Forall3_In _ _ _ _ (Forall3_Forall2_and _ _ _ _ _ FO FF))]. cbv beta.
            intros f nv out [[RO [A1 [A2 [_ [_ [_ [_ A7]]]]]]] [Hf [Hnv _]]]. split; auto.
            unfold tuple_class in TC. rewrite Forall_forall in TC. destruct (TC f Hf) as (Hw & Hr & _ & _ & Hfl).
            destruct RO as [[E _]|[[_ [_ [x [X' ->]]]]|E]]; [congruence| |congruence]. exists x. split; auto. intros y Ny.
            rewrite Forall_forall in K7. pose proof (K7 f Hf) as [(_ & _ & _ & TY & _) _]. rewrite Hw in TY, A2.
            destruct X' as [[NS X']|[g [C1 C2]]].
            - destruct (IH (snd nv) (vsize_obj c attrs nv Hnv) (f_type f) false (c_tagging d) (coerces d) x y) as [v' [V1 V2]]; auto.
              { apply (proj1 (HQ d HQd) f Hf). now rewrite Hw. }
              exists v'. split; auto. left. split; auto. exact (unpaired P W d f F Hf NS).
            - destruct (A7 Hw) as (x' & B1 & [g' [C1' C2']] & B2); [congruence|]. rewrite C1 in C1'. injection C1' as <-.
              assert (x' = x) by congruence. subst x'. apply norm_scalar in Ny; [|exact B1]. subst y.
              exists (snd nv). split; [|constructor]. right. split; [now apply B2|]. eapply wt_bear; [apply le_n|apply TY; auto|auto]. }
          clear -FA NL. revert l' NL. induction FA; intros l' NL; simpl in NL.
          - inversion NL; subst. exists []. split; constructor.
          - destruct H as [E [x [-> H]]]. simpl in NL. inversion NL as [|x' y xs ys N1 N2]; subst.
            destruct (IHFA _ N2) as [attrs' [G1 G2]]. destruct (H _ N1) as [v' [V1 V2]].
            exists ((f_name a, v') :: attrs'). split; constructor; auto. }
        destruct GO as [attrs' [G1 G2]]. assert (SM : SAME (VObj c attrs) (VObj c attrs')) by now constructor.
        exists (VObj c attrs'). split; auto. apply (A_obj_tuple P W reuse' hook tg c d attrs' s l'); auto.
        apply (proj2 (HQ d HQd) _ _ SM Hpost).
  Qed.

  Lemma plain_norm v y : plain v = true -> NORM v y -> forall c l, y <> VObj c l.
  Proof. intros Hp N c l ->. inversion N; subst; discriminate. Qed.

  Lemma seq_rt k l l' a y (nm : bool) tg co :
    (forall x, In x l -> RT x a) -> tyok P W tg co a -> FMT hook a -> (nm = false -> forall d, Q d -> tuple_class d) ->
    Forall (fun x => WT x a) l -> Forall2 (fun x y => WIRE nm tg x a y) l l' -> NORM (VSeq k l') y ->
    exists s l0 l2, y = VSeq s l2 /\ (s = k \/ list_or_tuple s) /\ Forall2 SAME l l0 /\ Forall2 (fun x y => ACC nm tg x a y) l0 l2.
  Proof.
    intros IH T F HT HW X N. apply norm_seq in N as [s [l2 [-> [NL HS]]]].
    assert (F2 : Forall2 (fun x z => WT x a /\ exists y, WIRE nm tg x a y /\ NORM y z) l l2).
    { clear -HW X NL. revert l2 NL. induction X; intros l2 NL; inversion NL; subst; constructor; inversion HW; subst; eauto. }
    destruct (Forall2_choice3 _ SAME (fun x y => ACC nm tg x a y) _ _ F2) as [l0 [G1 G2]].
    { intros x z Hx [H1 [x' [H2 H3]]]. destruct (IH x Hx nm tg co x' z) as [v' [V1 V2]]; eauto. }
    exists s, l0, l2. auto.
  Qed.

  Lemma same_keys a l l0 : keyty a = true -> Forall (fun x => WT x a) l -> Forall2 SAME l l0 -> l0 = l.
  Proof.
    intros KT HW F. induction F; auto. inversion HW; subst. f_equal; auto. apply same_scalar; auto. eapply wt_keyval; eauto.
  Qed.
  Lemma keys_hashable a l : keyty a = true -> Forall (fun x => WT x a) l -> forallb (hashable P) l = true.
  Proof.
    intros KT HW. rewrite forallb_forall. rewrite Forall_forall in HW. intros x Hx. apply keyval_hashable. eapply wt_keyval; eauto.
  Qed.

  Lemma same_frozen1 : forall n v, vsize v <= n -> forall v', frozen v = true -> SAME v v' -> v' = v.
  Proof.
    induction n; intros v Hn v' F S; [destruct v; simpl in Hn; lia|]. inversion S; subst; auto; try discriminate.
    destruct k; try discriminate F. f_equal. cbn [frozen] in F. rewrite forallb_forall in F.
    assert (IH : forall x x', In x l -> SAME x x' -> x' = x).
    { intros x x' Hx Sx. apply (IHn x); auto. pose proof (vsize_seq KTuple l x Hx). lia. }
    clear -H IH. induction H; auto. f_equal; [apply IH; auto; now left|]. apply IHForall2. intros; apply IH; auto. now right.
  Qed.
  Lemma same_frozen l l' : forallb frozen l = true -> Forall2 SAME l l' -> l' = l.
  Proof.
    intros F S. induction S; auto. simpl in F. apply andb_prop in F as [F1 F2]. f_equal; auto. eapply same_frozen1; eauto.
  Qed.
  Lemma frozen_hashable : forall n v, vsize v <= n -> frozen v = true -> hashable P v = true.
  Proof.
    induction n; intros v Hn F; [destruct v; simpl in Hn; lia|]. destruct v; try discriminate F; try reflexivity.
    destruct k; try discriminate F. cbn [hashable]. cbn [frozen] in F. rewrite forallb_forall in *. intros x Hx. apply IHn; auto.
    pose proof (vsize_seq KTuple l x Hx). lia.
  Qed.
  Lemma frozen_hashables l : forallb frozen l = true -> forallb (hashable P) l = true.
  Proof. intros F. rewrite forallb_forall in *. intros x Hx. eapply frozen_hashable; eauto. Qed.

  Theorem transport : forall n v, vsize v <= n -> forall t, RT v t.
  Proof.
    induction n; intros v Hn; [destruct v; simpl in Hn; lia|].
    assert (IH : forall x, vsize x < vsize v -> forall t, RT x t) by (intros; apply IHn; lia).
    clear IHn.
    assert (HC : forall c, RT v (TClass c)).
    { intros c nm tg co x y T F HT HW X N. assert (HV : exists attrs, v = VObj c attrs) by (inversion HW; eauto).
      destruct HV as [attrs ->]. eapply (obj_rt c attrs); eauto. }
    induction t using pytype_ind'; intros nm tg co x y T F HT HW X N; try (cbn [tyok] in T; contradiction).
    - (* prim *) inversion HW; subst. inversion X; subst. apply norm_scalar in N; [|now apply (prim_val_scalar p)]. subst.
      exists x. split; constructor; auto.
    - (* subclass *) inversion HW; subst. inversion X; subst. exists (VSub n0 v0). split; [|constructor].
      constructor; auto; [apply norm_sub in N; tauto|]. intros E ->. specialize (F _ (sub_refl _)). cbn in F. congruence.
    - (* NewType *) inversion HW; subst. inversion X; subst. apply norm_scalar in N; [|now apply (prim_val_scalar p)]. subst.
      exists x. split; constructor; auto.
    - (* None *) inversion HW; subst. inversion X; subst. apply norm_scalar in N; [|reflexivity]. subst. exists VNone. split; constructor.
    - (* Any *) inversion HW; subst. inversion X; subst. exists y. split; [|now apply H0]. constructor. now apply plain_norm with (2 := N).
    - (* union *)
      destruct (is_opt (TUnion l)) eqn:O.
      + destruct (opt_shape l O) as [a [-> Ha]]. assert (T' : tyok P W tg co a) by (cbn [tyok] in T; now rewrite Ha in T).
        apply wire_opt in X as [[-> ->]|[Hv X]]; auto.
        * apply norm_scalar in N; [|reflexivity]. subst. exists VNone. split; [now constructor|constructor].
        * apply wt_opt in HW as [->|[_ [NN HW]]]; auto; [congruence|].
          rewrite Forall_forall in H. destruct (H a (or_introl eq_refl) nm tg co x y) as [v' [V1 V2]]; auto.
          { eapply fmt_sub; [exact F|]. intros s Hs. eapply sub_union; eauto. now left. }
          exists v'. split; auto. apply A_opt_some; auto. apply norm_not_none with (1 := N). eapply wire_nonnull; eauto.
      + assert (U : union_ok P W tg l) by (apply tyok_union with (co := co); auto).
        destruct (wt_union_inv _ _ _ _ _ _ _ HW O) as [t [Ht HV]].
        pose proof U as (UA & UC & UD & _). rewrite Forall_forall in UA.
        apply wire_union in X as [[t' [Ht' [Hc X]]]|[c [x' [Hc [X Tg]]]]]; auto.
        * destruct (arm_cases P t' (UA _ Ht')) as [[p ->]|[->|[[c [-> _]]|[B [KT _]]]]]; [| |discriminate|].
          -- inversion X; subst. assert (scalar_val x = true) by now apply (prim_val_scalar p). apply norm_scalar in N; auto. subst.
             exists x. split; [eapply A_union_prim; eauto|constructor].
          -- inversion X; subst. apply norm_scalar in N; auto. subst. exists VNone. split; [now apply A_union_none|constructor].
          -- (* container *)
             assert (HO : (exists s l, v = VSeq s l) \/ (exists m l, v = VMap m l)) by (destruct t'; try discriminate B; inversion X; subst; eauto).
             assert (E : t = t').
             { destruct (arm_cases P t (UA _ Ht)) as [[p ->]|[->|[[c [-> _]]|[B' _]]]];
                 [| | |exact (union_bulk_unique P W tg l t t' U Ht Ht' B' B)];
                 destruct HO as [[s [vs ->]]|[m [vs ->]]]; inversion HV; subst; match goal with E : prim_val ?p _ = true |- _ => destruct p; discriminate E end. }
             subst t'. rewrite Forall_forall in H.
             destruct (H t Ht true tg false x y) as [v' [V1 V2]]; auto.
             { now apply carrier_tyok. }
             { eapply fmt_sub; [exact F|]. intros s Hs. eapply sub_union; eauto. }
             { discriminate. }
             exists v'. split; auto. eapply A_union_bulk; eauto.
        * (* class *)
          assert (HV' : WT v (TClass c)).
          { pose proof (UA _ Ht) as UT. assert (HO : exists attrs, v = VObj c attrs) by (inversion X; eauto). destruct HO as [attrs ->].
            destruct (arm_cases P t UT) as [[p ->]|[->|[[c' [-> _]]|[B _]]]]; [| | |eapply wt_bulk in HV; [|exact B]; destruct HV as [[s [vs E]]|[m [vs E]]]; discriminate E];
              inversion HV; subst; auto.
            match goal with E : prim_val ?p _ = true |- _ => destruct p; discriminate E end. }
          destruct (UC _ Hc) as [d [Hd VO]]. pose proof (union_tagged P W tg l c U Hc) as UT.
          assert (FC : FMT hook (TClass c)) by (intros s Hs; inversion Hs; subst; exact I).
          assert (NE : forall c', In (TClass c') l -> c' <> c -> typename P (TClass c') <> typename P (TClass c))
            by (intros c' Hc' E; now apply (UD c' c)).
          destruct tg as [|tag|tag content|]; cbn [tagged variant_ok] in *; try congruence.
          -- (* external *) subst x. apply norm_str_map in N; [|constructor; [eexists; reflexivity|constructor]|repeat constructor; easy].
             destruct N as [kvs [-> [S1 [N1 [L1 [L2 _]]]]]]. destruct (L1 _ _ (or_introl eq_refl)) as [z [Nz Hz]].
             destruct (HC c true TagExternal co x' z I FC ltac:(discriminate) HV' X Nz) as [v' [V1 V2]]. exists v'. split; auto.
             eapply A_union_ext; eauto. intros c' Hc' E. apply L2. intros [E'|[]]. injection E' as E'. now apply (NE c' Hc' E).
          -- (* internal *) destruct VO as [VT [VD VK]]. destruct Tg as [l0 [-> ->]].
             assert (HO : exists attrs, v = VObj c attrs) by (inversion X; eauto). destruct HO as [attrs ->].
             destruct (obj_map c attrs d (TagInternal tag) (TagInternal tag) l0 [(VStr tag, VStr (typename P (TClass c)))] y) as [attrs' [kvs [-> [A1 [A2 A3]]]]]; auto.
             { right. split; auto. eauto. }
             exists (VObj c attrs'). split; auto. eapply A_union_int; eauto. apply A3. now left.
          -- (* adjacent *) subst x. apply norm_str_map in N; [|repeat (constructor; try (eexists; reflexivity))|].
             2:{ simpl. constructor; [|repeat constructor; easy]. intros [E|[]]. injection E as E. congruence. }
             destruct N as [kvs [-> [S1 [N1 [L1 [L2 _]]]]]]. destruct (L1 _ _ (or_introl eq_refl)) as [z [Nz Hz]].
             destruct (L1 tag (VStr (typename P (TClass c))) (or_intror (or_introl eq_refl))) as [z' [Nz' Hz']]. apply norm_scalar in Nz'; auto. subst z'.
             destruct (HC c true (TagAdjacent tag content) co x' z I FC ltac:(discriminate) HV' X Nz) as [v' [V1 V2]]. exists v'. split; auto.
             eapply A_union_adj; eauto.
    - (* list *) inversion HW; subst. inversion X; subst.
      destruct (seq_rt KList l l' t y nm tg co) as [s [l0 [l2 [-> [_ [G1 G2]]]]]]; auto.
      { intros z Hz. apply IH. now apply vsize_seq. }
      { eapply fmt_sub; [exact F|]. intros; now constructor. }
      exists (VSeq KList l0). split; constructor; auto.
    - (* set *) cbn [tyok] in T. destruct T as [KT T]. inversion HW; subst. inversion X; subst.
      destruct (seq_rt (if cv then KList else KSet) l l' t y nm tg co) as [s [l0 [l2 [-> [_ [G1 G2]]]]]]; auto.
      { intros z Hz. apply IH. now apply vsize_seq. }
      { eapply fmt_sub; [exact F|]. intros; now constructor. }
      assert (l0 = l) by (eapply same_keys; eauto). subst l0.
      exists (VSeq (set_kind k) l). split; constructor; auto. eapply keys_hashable; eauto.
    - (* deque *) inversion HW; subst. inversion X; subst.
      destruct (seq_rt KList l l' t y nm tg co) as [s [l0 [l2 [-> [_ [G1 G2]]]]]]; auto.
      { intros z Hz. apply IH. now apply vsize_seq. }
      { eapply fmt_sub; [exact F|]. intros; now constructor. }
      exists (VSeq KDeque l0). split; constructor; auto.
    - (* counter *)
      cbn [tyok] in T. destruct T as [KT T]. apply wt_counter' in HW as [l [-> [HW D]]].
      assert (XX : exists l', x = VMap MDict l' /\ Forall2 (fun kv kv' => WIRE nm tg (fst kv) t (fst kv') /\ snd kv' = snd kv) l l')
        by (inversion X; subst; eauto). destruct XX as [l' [-> X']].
      apply norm_map in N as [l1 [l2 [-> [NF RO]]]].
      assert (F2 : Forall2 (fun kv kv' => ACC nm tg (fst kv) t (fst kv') /\ snd kv' = snd kv) l l1).
      { assert (FT : FMT hook t) by (eapply fmt_sub; [exact F|]; intros; now constructor).
        assert (TK : txt = true -> text_key P t = true) by (exact (F _ (sub_refl _))).
        assert (GO : forall a b c : pyval * pyval, In a l -> WIRE nm tg (fst a) t (fst b) -> NKEY (fst b) (fst c) -> ACC nm tg (fst a) t (fst c)).
        { intros a b c Ha Xa Na. rewrite Forall_forall in HW. eapply key_rt; eauto. now apply HW. }
        clear -GO HW X' NF. revert l1 NF. induction X'; intros l1 NF; inversion NF as [|b c ls lt [N1 N2] NF']; subst; constructor.
        - destruct H as [H1 H2]. split; [eapply GO; eauto; now left|]. inversion HW as [|? ? [_ [z Hz]] _]; subst.
          rewrite H2, Hz in N2. rewrite Hz. now apply norm_scalar in N2.
        - apply IHX'; auto; [now inversion HW|]. intros a b0 c0 Ha. apply GO. now right. }
      destruct (reordered_pull _ _ _ _ F2 RO) as [l0 [RO' F3]].
      assert (KV : Forall (fun v => keyval v = true) (map fst l)).
      { apply Forall_forall. intros k Hk. apply in_map_iff in Hk as [kv [<- Hkv]]. rewrite Forall_forall in HW. eapply wt_keyval; eauto. now apply HW. }
      assert (PM : Permutation (map fst l) (map fst l0)) by (destruct RO' as [->|[_ PM]]; [reflexivity|now apply Permutation_map]).
      exists (VMap MCounter l0). split.
      + apply A_counter; auto; [now apply (distinct_perm P (map fst l))|].
        rewrite forallb_forall. intros k Hk. apply keyval_hashable. rewrite Forall_forall in KV. apply KV. eapply Permutation_in; [symmetry; exact PM|auto].
      + apply S_map with (l1 := l); auto. apply Forall2_same. apply Forall_forall. intros kv _. split; auto. constructor.
    - (* dict *)
      cbn [tyok] in T. destruct T as [KT [T1 [T2 T3]]]. apply wt_dict_inv in HW as [m [l [-> [DK [HW D]]]]].
      assert (XX : exists l', x = VMap MDict l' /\ Forall2 (fun kv kv' => WIRE nm tg (fst kv) t1 (fst kv') /\ WIRE nm tg (snd kv) t2 (snd kv')) l l')
        by (inversion X; subst; eauto). destruct XX as [l' [-> X']].
      apply norm_map in N as [l1 [l2 [-> [NF RO]]]].
      assert (FT1 : FMT hook t1) by (eapply fmt_sub; [exact F|]; intros; now constructor).
      assert (FT2 : FMT hook t2) by (eapply fmt_sub; [exact F|]; intros; now apply sub_dict_v).
      assert (TK : txt = true -> text_key P t1 = true \/ t1 = TPrim PInt) by (exact (F _ (sub_refl _))).
      assert (KEY : forall a b c : pyval * pyval, In a l -> WIRE nm tg (fst a) t1 (fst b) -> NKEY (fst b) (fst c) ->
         ACC nm tg (fst a) t1 (fst c) \/ t1 = TPrim PInt /\ exists z s, fst a = VInt z /\ fst c = VStr s /\ w_int_of_str W s = Some z).
      { intros a b c Ha Xa Na. rewrite Forall_forall in HW. destruct (HW _ Ha) as [Wa _].
        destruct (cases_on txt) as [ET|ET]; [|left; eapply key_rt; eauto; congruence].
        destruct (TK ET) as [TK'|TK']; [left; eapply key_rt; eauto|]. subst t1. right. split; auto.
        inversion Wa as [p v0 PV| | | | | | | | | | | | | | | | | | | | |]; subst. destruct (fst a); try discriminate PV.
        assert (E : fst b = VInt z) by (inversion Xa; subst; auto). rewrite E in Na.
        inversion Na; subst; try congruence; try contradiction. exists z, (z_str z). repeat split; auto. }
      assert (F2 : Forall2 (fun kv kv' => WT (snd kv) t2 /\ (exists b, WIRE nm tg (snd kv) t2 b /\ NORM b (snd kv')) /\
          (ACC nm tg (fst kv) t1 (fst kv') \/ t1 = TPrim PInt /\ exists z s, fst kv = VInt z /\ fst kv' = VStr s /\ w_int_of_str W s = Some z)) l l1).
      { clear -KEY HW X' NF. revert l1 NF. induction X'; intros l1 NF; inversion NF as [|b c ls lt [N1 N2] NF']; subst; constructor.
        - destruct H as [H1 H2]. inversion HW as [|? ? [_ Wz] _]; subst. split; auto. split; [eauto|]. eapply KEY; eauto. now left.
        - apply IHX'; auto; [now inversion HW|]. intros a b0 c0 Ha. apply KEY. now right. }
      destruct (Forall2_choice3 _ (fun kv kv' => fst kv' = fst kv /\ SAME (snd kv) (snd kv'))
         (fun kv kv' => (ACC nm tg (fst kv) t1 (fst kv') \/ t1 = TPrim PInt /\ exists z s, fst kv = VInt z /\ fst kv' = VStr s /\ w_int_of_str W s = Some z) /\
             ACC nm tg (snd kv) t2 (snd kv')) _ _ F2) as [l3 [G1 G2]].
      { intros a b Ha [Wa [[z [Xz Nz]] Kb]].
        destruct (IH (snd a) (proj2 (vsize_map m l a Ha)) t2 nm tg co z (snd b) T2 FT2 HT Wa Xz Nz) as [v' [V1 V2]].
        exists (fst a, v'). cbn [fst snd]. auto. }
      destruct (reordered_pull _ _ _ _ G2 RO) as [l4 [RO' G3]].
      assert (EK : map fst l3 = map fst l) by (symmetry; eapply Forall2_map_eq; [|exact G1]; now intros a b [? _]).
      assert (KV : Forall (fun v => keyval v = true) (map fst l)).
      { apply Forall_forall. intros k0 Hk. apply in_map_iff in Hk as [kv [<- Hkv]]. rewrite Forall_forall in HW. eapply wt_keyval; eauto. now apply HW. }
      assert (PM : Permutation (map fst l) (map fst l4)) by (rewrite <- EK; destruct RO' as [->|[_ PM]]; [reflexivity|now apply Permutation_map]).
      exists (VMap m l4). split.
      + apply A_dict; auto; [now apply (distinct_perm P (map fst l))|].
        rewrite forallb_forall. intros k0 Hk. apply keyval_hashable. rewrite Forall_forall in KV. apply KV. eapply Permutation_in; [symmetry; exact PM|auto].
      + apply S_map with (l1 := l3); auto.
    - (* tuple *)
      destruct (tyok_tuple P W tg co l T) as [_ TT].
      assert (XX : exists vs, v = VSeq KTuple vs /\ Forall2 (fun t x => WT x t) l vs) by (inversion HW; subst; eauto).
      destruct XX as [vs [-> HW']].
      assert (XX : exists xs, x = VSeq KTuple xs /\ Forall3 (fun t x y => WIRE nm tg x t y) l vs xs) by (inversion X; subst; eauto).
      destruct XX as [xs [-> X']]. apply norm_seq in N as [s [ys [-> [NF HS]]]].
      assert (FT : Forall (FMT hook) l) by (apply Forall_forall; intros a Ha; eapply fmt_sub; [exact F|]; intros; eapply sub_tuple; eauto).
      assert (GO : exists vs', Forall2 SAME vs vs' /\ Forall3 (fun t x y => ACC nm tg x t y) l vs' ys).
      { assert (IH' : forall u, In u vs -> forall t, RT u t) by (intros; apply IH; now apply vsize_seq).
        clear -IH' TT FT HT HW' X' NF. revert ys NF. induction X'; intros ys NF; inversion NF; subst; [exists []; split; constructor|].
        inversion TT; subst. inversion FT; subst. inversion HW'; subst.
        destruct (IHX' ltac:(assumption) ltac:(assumption) ltac:(assumption) ltac:(intros; apply IH'; now right) _ ltac:(eassumption)) as [vs' [G1 G2]].
        destruct (IH' b (or_introl eq_refl) a nm tg co c y) as [v' [V1 V2]]; auto.
        exists (v' :: vs'). split; constructor; auto. }
      destruct GO as [vs' [G1 G2]]. exists (VSeq KTuple vs'). split; constructor; auto. destruct HS as [->|HS]; auto.
    - (* variadic tuple *) inversion HW; subst. inversion X; subst.
      destruct (seq_rt KTuple l l' t y nm tg co) as [s [l0 [l2 [-> [_ [G1 G2]]]]]]; auto.
      { intros z Hz. apply IH. now apply vsize_seq. }
      { eapply fmt_sub; [exact F|]. intros; now constructor. }
      exists (VSeq KTuple l0). split; constructor; auto.
    - (* bare *) cbn [tyok] in T. destruct T as [TB1 TB2].
      assert (SV : forall l l', Forall (survives ord txt seq) l -> Forall2 NORM l l' -> Forall2 SAME l l').
      { intros l l' S NF. revert l' NF. induction S; intros l' NF; inversion NF; subst; constructor; auto. }
      inversion HW as [| | | | | | | | | | | | | | |b' v0 BV| | | | | |]; subst.
      destruct b; destruct v; try contradiction; destruct k; try contradiction; try (destruct k0); try contradiction; cbn [bare_val] in BV.
      + inversion X; subst. apply norm_seq in N as [s [l' [-> [NF _]]]]. exists (VSeq KList l'). split; constructor; auto.
      + inversion X; subst. apply norm_seq in N as [s [l' [-> [NF _]]]]. exists (VSeq KList l'). split; constructor; auto.
      + inversion X; subst. apply norm_seq in N as [s [l' [-> [NF _]]]]. exists (VSeq KList l'). split; constructor; auto.
      + inversion X; subst. apply norm_seq in N as [s [l' [-> [NF _]]]]. destruct BV as [B1 [B2 B3]].
        assert (l' = l) by (apply same_frozen; auto). subst. exists (VSeq KSet l). split; constructor; auto; try discriminate. now apply frozen_hashables.
      + inversion X; subst. apply norm_seq in N as [s [l' [-> [NF _]]]]. destruct BV as [B1 [B2 B3]].
        assert (l' = l) by (apply same_frozen; auto). subst. exists (VSeq KSet l). split; constructor; auto; try discriminate. now apply frozen_hashables.
      + inversion X; subst. apply norm_seq in N as [s [l' [-> [NF _]]]]. destruct BV as [B1 [B2 B3]].
        assert (l' = l) by (apply same_frozen; auto). subst. exists (VSeq KSet l). split; constructor; auto; try discriminate. now apply frozen_hashables.
      + inversion X; subst. pose proof (BV _ N) as S. apply norm_map in N as [l1 [l' [-> _]]]. exists (VMap MDict l'). split; auto. now constructor.
      + inversion X; subst. pose proof (BV _ N) as S. apply norm_map in N as [l1 [l' [-> _]]]. exists (VMap MDict l'). split; auto. now constructor.
      + inversion X; subst. pose proof (BV _ N) as S. apply norm_map in N as [l1 [l' [-> _]]]. exists (VMap MDict l'). split; auto. now constructor.
      + inversion X; subst. apply norm_seq in N as [s [l' [-> [NF _]]]]. exists (VSeq KTuple l'). split; constructor; auto.
      + inversion X; subst. apply norm_seq in N as [s [l' [-> [NF _]]]]. exists (VSeq KDeque l'). split; constructor; auto.
      + inversion X; subst. pose proof (BV _ N) as S. apply norm_map in N as [l1 [l' [-> _]]]. exists (VMap MCounter l'). split; [constructor|].
        inversion S; subst; [constructor|econstructor; eauto].
    - (* enum *) apply wire_enum_inv in X as [m [-> M]]. cbn [tyok] in T. destruct T as [e [He [_ [Hs _]]]].
      pose proof (enum_member_In _ _ _ _ He M) as Hi. destruct (Hs _ _ Hi) as [Sx _]. apply norm_scalar in N; auto. subst.
      exists (VEnum c m). split; constructor; auto.
    - (* class *) eapply HC; eauto.
    - (* literal *) inversion HW; subst. inversion X; subst. cbn [tyok] in T. rewrite forallb_forall in T.
      match goal with Hx : In ?z l |- _ => pose proof (T _ Hx) as HL; assert (SS : scalar_val (lit_val z) = true) by (destruct z; auto; discriminate) end.
      apply norm_scalar in N; auto. subst. eexists. split; [now constructor|constructor].
    - (* str *) inversion HW; subst. inversion X; subst. exists (VInst k s). split; [|constructor].
      destruct (cases_on reuse) as [ER|ER]; rewrite ER in N.
      + destruct (HReuse ER) as [R1 R2]. apply norm_inst in N; [|exact I]. subst. now apply A_str_inst.
      + apply norm_scalar in N; [|reflexivity]. subst. now constructor.
    - (* date *) inversion HW; subst. inversion X; subst. exists (VDate k s). split; [|constructor].
      destruct (cases_on reuse) as [ER|ER]; rewrite ER in N.
      + destruct (HReuse ER) as [R1 R2]. apply norm_inst in N; [|exact I]. subst. now apply A_date_inst.
      + apply norm_scalar in N; [|reflexivity]. subst. now constructor.
    - (* alias *) inversion HW; subst. inversion X; subst. destruct (IHt nm tg co x y) as [v' [V1 V2]]; auto; [apply T| |].
      { eapply fmt_sub; [exact F|]. intros; now constructor. }
      exists v'. split; auto. now constructor.
  Qed.
End Transport.
