(** Boolean checks that imply [frag_class] and [wt]: used to show that concrete classes and values
    belong to the supported fragment. *)
From Coq Require Import String List ZArith Bool Ascii.
From Verif Require Import Base PyVal PyType Program Compat Spec.
Import ListNotations.
Open Scope string_scope.
Open Scope list_scope.

Definition prim_eq_dec (a b : prim) : {a = b} + {a <> b}. Proof. decide equality. Defined.
Definition float_eq_dec (a b : pyfloat) : {a = b} + {a <> b}.
Proof. decide equality; try apply Bool.bool_dec; try apply Pos.eq_dec; apply Z.eq_dec. Defined.
Definition litval_eq_dec (a b : litval) : {a = b} + {a <> b}.
Proof. decide equality; try apply Bool.bool_dec; try apply string_dec; apply Z.eq_dec. Defined.
Definition bare_eq_dec (a b : bare) : {a = b} + {a <> b}. Proof. decide equality; decide equality. Defined.
Definition seqkind_eq_dec (a b : seqkind) : {a = b} + {a <> b}. Proof. decide equality. Defined.
Definition mapkind_eq_dec (a b : mapkind) : {a = b} + {a <> b}. Proof. decide equality; apply string_dec. Defined.

Fixpoint pytype_eq_dec (a b : pytype) {struct a} : {a = b} + {a <> b}.
Proof.
  decide equality; try apply string_dec; try apply prim_eq_dec; try apply bare_eq_dec;
    try (apply list_eq_dec; exact pytype_eq_dec); try (apply list_eq_dec; exact litval_eq_dec); decide equality.
Defined.
Fixpoint pyval_eq_dec (a b : pyval) {struct a} : {a = b} + {a <> b}.
Proof.
  decide equality; try apply string_dec; try apply Z.eq_dec; try apply Bool.bool_dec; try apply float_eq_dec;
    try apply seqkind_eq_dec; try apply mapkind_eq_dec; try (apply list_eq_dec; exact pyval_eq_dec);
    apply list_eq_dec; decide equality; apply string_dec.
Defined.
Definition val_eqb (a b : pyval) : bool := if pyval_eq_dec a b then true else false.
Lemma val_eqb_eq a b : val_eqb a b = true -> a = b.
Proof. unfold val_eqb. destruct (pyval_eq_dec a b); congruence. Qed.
Definition tyb (a b : pytype) : bool := if pytype_eq_dec a b then true else false.
Lemma tyb_eq a b : tyb a b = true -> a = b.
Proof. unfold tyb. destruct (pytype_eq_dec a b); congruence. Qed.
Definition inb (t : pytype) (l : list pytype) : bool := existsb (tyb t) l.
Lemma inb_In t l : inb t l = true -> In t l.
Proof. unfold inb. rewrite existsb_exists. intros [x [H E]]. apply tyb_eq in E. now subst. Qed.

(** Type arguments at any depth *)
Fixpoint subs (t : pytype) : list pytype :=
  t :: match t with
       | TUnion l | TTuple l => flat_map subs l
       | TList _ a | TSet _ a | TDeque a | TCounter a | TVarTuple a | TAlias _ a => subs a
       | TDict _ a b => subs a ++ subs b
       | _ => []
       end.
Lemma subs_sound s t : sub_ty s t -> In s (subs t).
Proof.
  induction 1; try (cbn [subs]; right; try apply in_or_app; auto; fail).
  - destruct t; now left.
  - cbn [subs]. right. apply in_flat_map. eauto.
  - cbn [subs]. right. apply in_flat_map. eauto.
Qed.

Section Decide.
  Variables (P : program) (W : world).

  Definition field_subs (d : classdef) : list pytype :=
    flat_map (fun f => if f_skip f then [] else subs (f_type f)) (c_fields d).
  Fixpoint add_all (l acc : list pytype) : list pytype :=
    match l with [] => acc | t :: r => add_all r (if inb t acc then acc else acc ++ [t]) end.
  Definition expand (L : list pytype) : list pytype :=
    fold_left (fun acc t => match t with
      | TClass c => match get_class P c with Some d => add_all (field_subs d) acc | None => acc end
      | _ => acc end) L L.
  (** Closure after [n] rounds *)
  Fixpoint closure (n : nat) (L : list pytype) : list pytype :=
    match n with O => L | S n => closure n (expand L) end.
  Definition closedb (d : classdef) (L : list pytype) : bool :=
    inb (TClass (c_id d)) L && forallb (fun t => inb t L) (field_subs d) &&
    forallb (fun t => match t with
      | TClass c => match get_class P c with Some d => forallb (fun t => inb t L) (field_subs d) | None => true end
      | _ => true end) L.
  Lemma closed_reach d L : closedb d L = true -> forall t, reach P d t -> In t L.
  Proof.
    unfold closedb. intros H. apply andb_prop in H as [H H3]. apply andb_prop in H as [H1 H2].
    rewrite forallb_forall in H2, H3. intros t R. induction R as [|f t Hf Hs S|c d' f t R IH Hd Hf Hs S].
    - now apply inb_In.
    - apply inb_In, H2. unfold field_subs. apply in_flat_map. exists f. split; auto. rewrite Hs. now apply subs_sound.
    - specialize (H3 _ IH). cbv beta iota in H3. rewrite Hd in H3. rewrite forallb_forall in H3.
      apply inb_In, H3. unfold field_subs. apply in_flat_map. exists f. split; auto. rewrite Hs. now apply subs_sound.
  Qed.

  Definition pairsb {A} (R : A -> A -> bool) (l : list A) : bool := forallb (fun a => forallb (R a) l) l.
  Lemma pairsb_spec {A} (R : A -> A -> bool) l : pairsb R l = true -> forall a b, In a l -> In b l -> R a b = true.
  Proof. unfold pairsb. rewrite forallb_forall. intros H a b Ha Hb. specialize (H a Ha). rewrite forallb_forall in H. auto. Qed.

  Definition names_okb (L : list pytype) : bool :=
    pairsb (fun t t' => implb (nominal t && nominal t' && String.eqb (typename P t) (typename P t')) (tyb t t')) L.
  Definition unions_okb (L : list pytype) : bool :=
    pairsb (fun t t' => match t, t' with
      | TUnion l, TUnion l' => implb (String.eqb (union_func_name P "" l) (union_func_name P "" l')) (tyb t t')
      | _, _ => true end) L.
  Definition literals_okb (L : list pytype) : bool :=
    pairsb (fun t t' => match t, t' with
      | TLit l, TLit l' => implb (String.eqb (literal_func_name P l) (literal_func_name P l')) (tyb t t')
      | _, _ => true end) L.

  Lemma sanitize_app a b : sanitize (a ++ b)%string = (sanitize a ++ sanitize b)%string.
  Proof. induction a; cbn; congruence. Qed.
  Lemma app_cancel (a b c : string) : (a ++ b)%string = (a ++ c)%string -> b = c.
  Proof. induction a; cbn; auto. intros E. injection E; auto. Qed.

  Lemma names_okb_ok d L : closedb d L = true -> names_okb L = true -> names_ok P d.
  Proof.
    intros C N t t' R R' H H' E. pose proof (pairsb_spec _ _ N t t' (closed_reach d L C t R) (closed_reach d L C t' R')) as X.
    cbv beta in X. rewrite H, H', E, String.eqb_refl in X. now apply tyb_eq.
  Qed.
  Lemma unions_okb_ok d L : closedb d L = true -> unions_okb L = true -> unions_ok P d.
  Proof.
    intros C N pre l l' R R' E. pose proof (pairsb_spec _ _ N _ _ (closed_reach d L C _ R) (closed_reach d L C _ R')) as X.
    cbv beta iota in X. unfold union_func_name in *. rewrite !sanitize_app in E. apply app_cancel in E. rewrite <- !sanitize_app in E.
    change ("" ++ ?x)%string with x in X. rewrite E, String.eqb_refl in X. apply tyb_eq in X. congruence.
  Qed.
  Lemma literals_okb_ok d L : closedb d L = true -> literals_okb L = true -> literals_ok P d.
  Proof.
    intros C N l l' R R' E. pose proof (pairsb_spec _ _ N _ _ (closed_reach d L C _ R) (closed_reach d L C _ R')) as X.
    cbv beta iota in X. rewrite E, String.eqb_refl in X. apply tyb_eq in X. congruence.
  Qed.

  Fixpoint ordpairsb {A} (R : A -> A -> bool) (l : list A) : bool :=
    match l with [] => true | a :: r => forallb (R a) r && ordpairsb R r end.
  Lemma ordpairsb_ok {A} (R : A -> A -> bool) l : ordpairsb R l = true -> ForallOrdPairs (fun a b => R a b = true) l.
  Proof.
    induction l; cbn; [constructor|]. intros H. apply andb_prop in H as [H1 H2]. constructor; auto.
    apply Forall_forall. now apply forallb_forall.
  Qed.
  Definition distinctb (l : list pyval) : bool := ordpairsb (fun a b => negb (eqv P a b)) l.
  Lemma distinctb_ok l : distinctb l = true -> distinct P l.
  Proof.
    intros H. apply ordpairsb_ok in H. unfold distinct. induction H; constructor; auto. eapply Forall_impl; [|exact H].
    intros x. cbv beta. now rewrite negb_true_iff.
  Qed.
  Definition nodupb {A} (dec : forall a b : A, {a = b} + {a <> b}) (l : list A) : bool :=
    ordpairsb (fun a b => if dec a b then false else true) l.
  Lemma nodupb_ok {A} dec (l : list A) : nodupb dec l = true -> NoDup l.
  Proof.
    intros H. apply ordpairsb_ok in H. induction H; constructor; auto. intros I. rewrite Forall_forall in H. specialize (H _ I).
    cbv beta in H. destruct (dec a a); congruence.
  Qed.

  Definition enum_wfb (c : string) : bool :=
    match get_enum P c with
    | Some e => nodupb string_dec (map fst (e_members e)) &&
                forallb (fun mv => scalar_val (snd mv) && eqv P (snd mv) (snd mv)) (e_members e) &&
                pairsb (fun a b => implb (eqv P (snd a) (snd b)) (String.eqb (fst a) (fst b))) (e_members e)
    | None => false
    end.
  Lemma enum_wfb_ok c : enum_wfb c = true -> enum_wf P c.
  Proof.
    unfold enum_wfb, enum_wf. destruct (get_enum P c) as [e|]; [|discriminate]. intros H. apply andb_prop in H as [H H3]. apply andb_prop in H as [H1 H2].
    exists e. split; auto. split; [eapply nodupb_ok; eauto|]. rewrite forallb_forall in H2. split.
    - intros m v Hm. specialize (H2 _ Hm). cbn [snd] in H2. now apply andb_prop in H2.
    - intros m v m' v' A B E. pose proof (pairsb_spec _ _ H3 _ _ A B) as X. cbn [fst snd] in X. rewrite E in X. now apply String.eqb_eq in X.
  Qed.

  Fixpoint carrierb (t : pytype) : bool :=
    match t with
    | TPrim _ | TNewType _ _ | TAny | TClass _ | TStr _ | TDate _ => true
    | TPrimSub _ p => if prim_eq_dec p PBool then false else true
    | TUnion [a; TNone] => negb (is_none a) && carrierb a
    | TList _ a | TDeque a | TVarTuple a => carrierb a
    | TSet k a => (match k with SkFrozen => false | _ => true end) && (keyty a && carrierb a)
    | TCounter a => keyty a && carrierb a
    | TDict k a b => keyty a && carrierb a && carrierb b &&
        (match k with DkDefault => match factory_of b with Some _ => true | None => false end | _ => true end)
    | TTuple l => match l with [] => false | _ => forallb carrierb l end
    | TBare b => (if bare_eq_dec b (BSet SkFrozen) then false else true) && (if bare_eq_dec b (BDict DkDefault) then false else true)
    | TEnum c => enum_wfb c
    | _ => false
    end.
  Lemma carrierb_ok : forall t, carrierb t = true -> carrier P t.
  Proof.
    induction t using pytype_ind'; cbn [carrierb carrier]; auto; try discriminate; try (intros H; apply andb_prop in H as [H1 H2]); auto.
    - destruct (prim_eq_dec p PBool); [discriminate|auto].
    - destruct l as [|a [|b [|c r]]]; try discriminate; destruct b; try discriminate. intros E. apply andb_prop in E as [E1 E2].
      rewrite negb_true_iff in E1. inversion H; auto.
    - apply andb_prop in H2 as [H2 H3]. repeat split; auto. now intros ->.
    - apply andb_prop in H1 as [H1 H3]. apply andb_prop in H1 as [H0 H1]. repeat split; auto. intros ->. destruct (factory_of t2); congruence.
    - intros E. split; [destruct l; discriminate|].
      assert (E' : forallb carrierb l = true) by (destruct l; [discriminate|exact E]). clear E. induction l as [|a r IH]; [exact I|].
      cbn [forallb] in E'. apply andb_prop in E' as [E1 E2]. inversion H; subst. split; [auto|exact (IH H3 E2)].
    - destruct (bare_eq_dec b (BSet SkFrozen)); [discriminate|]. destruct (bare_eq_dec b (BDict DkDefault)); [discriminate|]. auto.
    - apply enum_wfb_ok.
  Qed.

  Definition union_armb (t : pytype) : bool :=
    match t with TPrim _ | TNone => true | TClass _ => lit_ok (typename P t) | _ => bulk t && (carrierb t && lit_ok (typename P t)) end.
  Lemma union_armb_ok t : union_armb t = true -> union_arm P t.
  Proof.
    destruct t; cbn [union_armb union_arm]; auto; intros H; apply andb_prop in H as [H1 H2]; apply andb_prop in H2 as [H2 H3]; auto using carrierb_ok.
  Qed.
  Fixpoint bulk_lastb (l : list pytype) : bool :=
    match l with [] => true | t :: r => implb (bulk t) (forallb is_none r) && bulk_lastb r end.
  Lemma bulk_lastb_ok l : bulk_lastb l = true -> forall l1 t l2, l = l1 ++ t :: l2 -> bulk t = true -> forall u, In u l2 -> u = TNone.
  Proof.
    induction l as [|x l IH]; cbn [bulk_lastb]; intros H [|y l1] t l2 E B u Hu; try discriminate E; injection E as -> ->; apply andb_prop in H as [H1 H2].
    - rewrite B in H1. cbn [implb] in H1. rewrite forallb_forall in H1. specialize (H1 u Hu). destruct u; try discriminate. reflexivity.
    - eapply IH; eauto.
  Qed.
  Definition variant_okb (tg : tagging) (d : classdef) : bool :=
    match tg with
    | TagExternal => true
    | TagInternal tag => negb (c_transparent d) && negb (c_deny d) && forallb (fun f => negb (smem tag (entry_keys P W d f))) (c_fields d)
    | TagAdjacent tag content => negb (String.eqb tag content)
    | Untagged => false
    end.
  Definition union_okb (tg : tagging) (l : list pytype) : bool :=
    forallb union_armb l &&
    forallb (fun t => match t with TClass c => match get_class P c with Some d => variant_okb tg d | None => false end | _ => true end) l &&
    pairsb (fun t t' => match t, t' with
      | TClass c, TClass c' => String.eqb c c' || negb (String.eqb (typename P t) (typename P t')) && negb (obj_isa P c c')
      | _, _ => true end) l &&
    (bulk_lastb l && (negb (existsb mapping l) || forallb (fun t => match t with TClass _ => false | _ => true end) l)).
  Lemma variant_okb_ok tg d : variant_okb tg d = true -> variant_ok P W tg d.
  Proof.
    destruct tg; cbn [variant_okb variant_ok]; auto.
    - intros H. apply andb_prop in H as [H H3]. apply andb_prop in H as [H1 H2]. rewrite negb_true_iff in H1, H2. repeat split; auto.
      rewrite forallb_forall in H3. intros f Hf I. specialize (H3 _ Hf). rewrite negb_true_iff in H3. unfold smem in H3.
      assert (X : existsb (String.eqb tag) (entry_keys P W d f) = true) by (apply existsb_exists; exists tag; split; auto; apply String.eqb_refl).
      congruence.
    - rewrite negb_true_iff, String.eqb_neq. auto.
    - discriminate.
  Qed.
  Lemma union_okb_ok tg l : union_okb tg l = true -> union_ok P W tg l.
  Proof.
    unfold union_okb, union_ok. intros H. apply andb_prop in H as [H H4]. apply andb_prop in H as [H H3]. apply andb_prop in H as [H1 H2].
    apply andb_prop in H4 as [H4 H5]. rewrite forallb_forall in H1, H2.
    split; [|split; [|split; [|split]]].
    - apply Forall_forall. intros t Ht. apply union_armb_ok. auto.
    - intros c Hc. specialize (H2 _ Hc). cbv beta iota in H2. destruct (get_class P c); [|discriminate]. eauto using variant_okb_ok.
    - intros c c' Hc Hc' N. pose proof (pairsb_spec _ _ H3 _ _ Hc Hc') as X. cbv beta iota in X. apply orb_prop in X as [X|X].
      + now apply String.eqb_eq in X.
      + apply andb_prop in X as [X1 X2]. rewrite negb_true_iff in X1, X2. apply String.eqb_neq in X1. auto.
    - exact (bulk_lastb_ok l H4).
    - intros t c Ht Hm Hc. apply orb_prop in H5 as [H5|H5].
      + rewrite negb_true_iff in H5. assert (E : existsb mapping l = true) by (apply existsb_exists; eauto). congruence.
      + rewrite forallb_forall in H5. discriminate (H5 _ Hc).
  Qed.

  Fixpoint tyokb (tg : tagging) (co : bool) (t : pytype) : bool :=
    match t with
    | TPrim _ | TNewType _ _ | TNone | TAny | TClass _ | TStr _ | TDate _ => true
    | TPrimSub _ p => negb co && (if prim_eq_dec p PBool then false else true)
    | TUnion l =>
        match l with
        | [a; TNone] => if is_none a then union_okb tg l else tyokb tg co a
        | _ => union_okb tg l
        end
    | TList _ a | TDeque a | TVarTuple a => tyokb tg co a
    | TSet _ a | TCounter a => keyty a && tyokb tg co a
    | TDict k a b => keyty a && tyokb tg co a && tyokb tg co b &&
        (match k with DkDefault => match factory_of b with Some _ => true | None => false end | _ => true end)
    | TTuple l => match l with [] => false | _ => forallb (tyokb tg co) l end
    | TBare b => (if bare_eq_dec b (BSet SkFrozen) then false else true) && (if bare_eq_dec b (BDict DkDefault) then false else true)
    | TEnum c => enum_wfb c
    | TLit l => forallb lit_arg_ok l
    | TAlias _ a => tyokb tg co a && negb (has_lit a)
    | _ => false
    end.
  Lemma tyokb_ok tg co : forall t, tyokb tg co t = true -> tyok P W tg co t.
  Proof.
    induction t using pytype_ind'; cbn [tyokb tyok]; auto; try discriminate; try (intros H; apply andb_prop in H as [H1 H2]); auto.
    - rewrite negb_true_iff in H1. destruct (prim_eq_dec p PBool); [discriminate|auto].
    - destruct l as [|a [|b [|c r]]]; auto using union_okb_ok; destruct b; auto using union_okb_ok.
      destruct (is_none a); auto using union_okb_ok. inversion H; auto.
    - apply andb_prop in H1 as [H1 H3]. apply andb_prop in H1 as [H0 H1]. repeat split; auto. intros ->. destruct (factory_of t2); congruence.
    - intros E. split; [destruct l; discriminate|].
      assert (E' : forallb (tyokb tg co) l = true) by (destruct l; [discriminate|exact E]). clear E. induction l as [|a r IH]; [exact I|].
      cbn [forallb] in E'. apply andb_prop in E' as [E1 E2]. inversion H; subst. split; [auto|exact (IH H3 E2)].
    - destruct (bare_eq_dec b (BSet SkFrozen)); [discriminate|]. destruct (bare_eq_dec b (BDict DkDefault)); [discriminate|]. auto.
    - apply enum_wfb_ok.
    - split; auto. now rewrite negb_true_iff in H2.
  Qed.

  Definition noneb {A} (o : option A) : bool := match o with None => true | Some _ => false end.
  Lemma noneb_ok {A} (o : option A) : noneb o = true -> o = None. Proof. destruct o; [discriminate|auto]. Qed.

  Definition case_knownb (d : classdef) (f : fielddef) : bool :=
    match c_rename_all d with Some (String a r) => negb (noneb (w_case W (String a r) (f_name f))) | _ => true end.
  Lemma case_knownb_ok d f : case_knownb d f = true -> case_known W d f.
  Proof.
    unfold case_knownb, case_known. destruct (c_rename_all d) as [[|]|]; auto. intros E.
    match type of E with negb (noneb ?w) = true => destruct w; [discriminate|discriminate E] end.
  Qed.

  Definition skip_okb (d : classdef) (f : fielddef) : bool :=
    implb (either (f_skip_if_default f) (c_skip_if_default d))
      match dflt f with None => true | Some (Ok (VObj _ _)) => false | Some (Ok _) => true | Some _ => false end.
  Lemma skip_okb_ok d f : skip_okb d f = true -> skip_ok d f.
  Proof.
    unfold skip_okb, skip_ok. intros H E r Hr. rewrite E, Hr in H. cbn [implb] in H. destruct r as [v| |]; try discriminate.
    exists v. split; [reflexivity|]. intros c l ->. discriminate.
  Qed.
  Definition no_skipb (d : classdef) (f : fielddef) : bool := noneb (drops P d f VNone).
  Lemma no_skipb_ok d f : no_skipb d f = true -> no_skip P d f.
  Proof.
    unfold no_skipb, no_skip, drops. intros H x. destruct (f_skip_if f); [discriminate|]. destruct (f_skip_if_false f); [discriminate|].
    destruct (either (f_skip_if_default f) _); [discriminate|]. destruct (either (f_skip_if_none f) _); [discriminate|reflexivity].
  Qed.

  Definition pairedb (f : fielddef) : bool :=
    match f_serializer f, f_deserializer f with
    | None, None => true
    | Some (FFun _), Some (FFun _) => match f_alias f with [] => negb (f_flatten f) | _ => false end
    | _, _ => false
    end.
  Lemma pairedb_ok f : pairedb f = true -> paired f /\ (f_serializer f <> None -> f_alias f = [] /\ f_flatten f = false).
  Proof.
    unfold pairedb, paired. destruct (f_serializer f) as [[|g]|]; destruct (f_deserializer f) as [[|h]|]; try discriminate.
    - intros H. split; [right; eauto|]. intros _. destruct (f_alias f); [|discriminate]. split; [reflexivity|]. now apply negb_true_iff.
    - intros _. split; [auto|]. congruence.
  Qed.
  Definition field_okb (d : classdef) (f : fielddef) : bool :=
    pairedb f && skip_okb d f &&
    implb (written f || read f) (tyokb (c_tagging d) (coerces d) (f_type f)) &&
    match wire_name W d f with Some k => lit_ok k | None => false end &&
    case_knownb d f &&
    match f_alias f with
    | [] => true
    | _ => scalar_ty (f_type f) && match wire_name W d f with Some k => String.eqb k (f_name f) | None => false end && forallb lit_ok (f_alias f)
    end &&
    (read f || match dflt f with Some (Ok _) => true | _ => false end).
  Lemma field_okb_ok d f : field_okb d f = true -> field_ok P W d f.
  Proof.
    unfold field_okb, field_ok. intros H. repeat (apply andb_prop in H as [H ?]). repeat rewrite negb_true_iff in *.
    match goal with X : pairedb f = true |- _ => apply pairedb_ok in X as [HP HP'] end.
    split; [exact HP|]. split; [exact HP'|]. clear HP HP'. split; [now apply skip_okb_ok|].
    repeat split; auto using case_knownb_ok.
    - intros E. rewrite E in *. cbn [implb] in *. auto using tyokb_ok.
    - destruct (wire_name W d f); [eauto|discriminate].
    - destruct (f_alias f); [now left|right]. match goal with E : _ && _ && _ = true |- _ => apply andb_prop in E as [E ?]; apply andb_prop in E as [? ?] end.
      split; auto. split; auto. destruct (wire_name W d f); [|discriminate]. f_equal. now apply String.eqb_eq.
    - intros E. rewrite E in *. cbn [orb] in *. destruct (dflt f) as [[| |]|]; try discriminate. eauto.
  Qed.

  Definition ostr_dec (a b : option string) : {a = b} + {a <> b}. Proof. decide equality. apply string_dec. Defined.
  Definition tagging_dec (a b : tagging) : {a = b} + {a <> b}. Proof. decide equality; apply string_dec. Defined.
  Definition kid_field_okb (d d' : classdef) (g : fielddef) : bool :=
    field_okb d' g && negb (f_flatten g) && written g && read g && match f_alias g with [] => true | _ => false end &&
    (if ostr_dec (wire_name W d g) (wire_name W d' g) then true else false) && case_knownb d g &&
    tyokb (c_tagging d) (coerces d) (f_type g) && no_skipb d' g && noneb (f_serializer g).
  Lemma kid_field_okb_ok d d' g : kid_field_okb d d' g = true -> kid_field_ok P W d d' g.
  Proof.
    unfold kid_field_okb, kid_field_ok. intros H. do 9 (apply andb_prop in H as [H ?]). repeat rewrite negb_true_iff in *.
    split; [now apply field_okb_ok|]. repeat split; auto using case_knownb_ok, tyokb_ok, no_skipb_ok, noneb_ok.
    - destruct (f_alias g); [reflexivity|discriminate].
    - destruct (ostr_dec (wire_name W d g) (wire_name W d' g)); [auto|discriminate].
  Qed.
  Definition flat_okb (d : classdef) (f : fielddef) : bool :=
    match f_type f with
    | TClass c =>
        match get_class P c with
        | Some d' =>
            negb (String.eqb c (c_id d)) && written f && read f && noneb (f_default f) && negb (c_transparent d') &&
            (if tagging_dec (c_tagging d') (c_tagging d) then true else false) && implb (c_deny d') (c_deny d) &&
            negb (c_ser_class_var d') && match c_fields d' with [] => false | _ => true end &&
            forallb (kid_field_okb d d') (c_fields d') && no_skipb d f
        | None => false
        end
    | _ => false
    end.
  Lemma flat_okb_ok d f : flat_okb d f = true -> flat_ok P W d f.
  Proof.
    unfold flat_okb, flat_ok. destruct (f_type f) as [| | | | | | | | | | | | | | |c| | | | | | | |]; try discriminate. destruct (get_class P c) as [d'|] eqn:E; [|discriminate].
    intros H. repeat (apply andb_prop in H as [H ?]). repeat rewrite negb_true_iff in *. exists c, d'.
    repeat split; auto using noneb_ok, no_skipb_ok.
    - now apply String.eqb_neq.
    - destruct (tagging_dec (c_tagging d') (c_tagging d)); [auto|discriminate].
    - intros D. match goal with X : implb _ _ = true |- _ => rewrite D in X; exact X end.
    - destruct (c_fields d'); discriminate.
    - apply Forall_forall. intros g Hg. apply kid_field_okb_ok. match goal with X : forallb _ _ = true |- _ => rewrite forallb_forall in X; auto end.
  Qed.
  Definition frag_fieldb (d : classdef) (f : fielddef) : bool := field_okb d f && implb (f_flatten f) (flat_okb d f).
  Lemma frag_fieldb_ok d f : frag_fieldb d f = true -> frag_field P W d f.
  Proof.
    unfold frag_fieldb, frag_field. intros H. apply andb_prop in H as [H1 H2]. split; [now apply field_okb_ok|].
    intros E. rewrite E in H2. now apply flat_okb_ok.
  Qed.

  Fixpoint kw_sortedb (l : list fielddef) : bool :=
    match l with
    | [] => true
    | f :: r =>
        if read f then
          implb (f_kw_only f)
             ((fix kws l := match l with
              | [] => true
              | g :: r => if read g then f_kw_only g && kws r else true
              end) r) && kw_sortedb r
        else true
    end.
  Lemma kw_sortedb_ok l : kw_sortedb l = true -> kw_sorted l.
  Proof.
    induction l as [|f r IH]; cbn [kw_sortedb kw_sorted]; auto. destruct (read f); auto. intros H. apply andb_prop in H as [H1 H2]. split; auto.
    intros E. rewrite E in H1. cbn [implb] in H1. clear -H1. induction r as [|g r IHr]; auto. destruct (read g); auto.
    apply andb_prop in H1 as [H1 H2]. split; [auto|exact (IHr H2)].
  Qed.

  (** [n]: number of rounds needed to reach all types *)
  Definition frag_classb (n : nat) (d : classdef) : bool :=
    let L := closure n (add_all (field_subs d) [TClass (c_id d)]) in
    noneb (c_serializer d) && noneb (c_deserializer d) && noneb (c_class_ser d) && noneb (c_class_de d) && negb (c_ser_class_var d) &&
    nodupb string_dec (map f_name (c_fields d)) && forallb (frag_fieldb d) (c_fields d) &&
    nodupb ostr_dec (concat (map (out_names P W d) (c_fields d))) &&
    forallb (fun f => forallb (fun g => forallb (fun a => if in_dec ostr_dec (Some a) (out_names P W d g) then false else true) (f_alias f)) (c_fields d)) (c_fields d) &&
    kw_sortedb (c_fields d) && closedb d L && names_okb L && unions_okb L && literals_okb L &&
    implb (c_transparent d) (match c_fields d with [f] => written f && read f && negb (f_flatten f) && noneb (f_serializer f) | _ => false end).
  Lemma frag_classb_ok n d : frag_classb n d = true -> frag_class P W d.
  Proof.
    unfold frag_classb, frag_class. intros H. cbv zeta in H. repeat (apply andb_prop in H as [H ?]).
    repeat split; auto using noneb_ok.
    - now apply negb_true_iff.
    - eapply nodupb_ok; eauto.
    - apply Forall_forall. intros f Hf. apply frag_fieldb_ok. match goal with E : forallb (frag_fieldb d) _ = true |- _ => rewrite forallb_forall in E; auto end.
    - eapply nodupb_ok; eauto.
    - intros f g a Hf Hg Ha. match goal with E : forallb (fun f => forallb _ _) _ = true |- _ => rewrite forallb_forall in E; specialize (E f Hf);
        cbv beta in E; rewrite forallb_forall in E; specialize (E g Hg); cbv beta in E; rewrite forallb_forall in E; specialize (E a Ha); cbv beta in E end.
      destruct (in_dec ostr_dec (Some a) (out_names P W d g)); [discriminate|auto].
    - now apply kw_sortedb_ok.
    - eapply names_okb_ok; eauto.
    - eapply unions_okb_ok; eauto.
    - eapply literals_okb_ok; eauto.
    - intros E. rewrite E in *. cbn [implb] in *. destruct (c_fields d) as [|f [|? ?]]; try discriminate.
      match goal with X : written f && read f && _ && _ = true |- _ => apply andb_prop in X as [X ?]; apply andb_prop in X as [X ?]; apply andb_prop in X as [? ?] end.
      rewrite negb_true_iff in *. exists f. auto 8 using noneb_ok.
  Qed.

  Lemma frag_classesb_ok n : forallb (frag_classb n) (p_classes P) = true -> forall d, In d (p_classes P) -> frag_class P W d.
  Proof. rewrite forallb_forall. intros H d Hd. eapply frag_classb_ok; eauto. Qed.

  (** * Values *)
  Section Values.
    Variables (sk : bool) (Q : classdef -> Prop) (raw : pyval -> Prop) (rawb : pyval -> bool).
    Hypothesis HF : forall d, In d (p_classes P) -> frag_class P W d.
    Hypothesis HQ : forall d, In d (p_classes P) -> Q d.
    Hypothesis HR : forall v, rawb v = true -> raw v.

    Definition absent_okb (f : fielddef) (v : pyval) : bool :=
      match dflt f with
      | Some (Ok x) => val_eqb x v
      | Some _ => false
      | None => nullable (f_type f) && val_eqb v VNone && noneb (f_deserializer f)
      end.
    Lemma absent_okb_ok f v : absent_okb f v = true -> absent_ok f v.
    Proof.
      unfold absent_okb, absent_ok. destruct (dflt f) as [[x| |]|]; try discriminate.
      - intros E. apply val_eqb_eq in E. now subst.
      - intros E. apply andb_prop in E as [E E3]. apply andb_prop in E as [E1 E2]. apply val_eqb_eq in E2. auto using noneb_ok.
    Qed.
    (** The form of values that have only one *)
    Fixpoint form1 (t : pytype) (v : pyval) {struct t} : option pyval :=
      match t with
      | TPrim _ | TNewType _ _ | TNone | TAny | TLit _ => Some v
      | TEnum c => match v with VEnum _ m => enum_member P c m | _ => None end
      | TUnion [a; TNone] => if is_none a then None else match v with VNone => Some VNone | _ => form1 a v end
      | TList _ a => match v with
          | VSeq KList l => option_map (VSeq KList) ((fix go l := match l with
                | [] => Some []
                | x :: r => match form1 a x, go r with Some y, Some r' => Some (y :: r') | _, _ => None end
                end) l)
          | _ => None
          end
      | TAlias _ a => form1 a v
      | _ => None
      end.
    Lemma form1_ok r c s : forall t nm tg v x y, form1 t v = Some x -> Wire P W r c s nm tg v t y -> y = x.
    Proof.
      fix IH 1. intros t nm tg v x y H Hw. destruct t; cbn [form1] in H; try discriminate.
      - injection H as <-. now inversion Hw.
      - injection H as <-. now inversion Hw.
      - injection H as <-. now inversion Hw.
      - injection H as <-. now inversion Hw.
      - destruct l as [|a [|b [|? ?]]]; try discriminate; [|destruct b; discriminate]. destruct b; try discriminate.
        destruct (is_none a) eqn:NA; [discriminate|].
        inversion Hw; subst; try (match goal with O : is_opt _ = false |- _ => cbn [is_opt] in O; rewrite NA in O; discriminate end).
        + now injection H.
        + match goal with X : Wire _ _ _ _ _ _ _ _ a _ |- _ => destruct v; try congruence; exact (IH a _ _ _ _ _ H X) end.
      - destruct v as [| | | | | |k0 l| | | | | |]; try discriminate. destruct k0; try discriminate.
        inversion Hw; subst. match goal with F : Forall2 _ l ?l2 |- _ => rename F into FW; rename l2 into l' end.
        match type of H with option_map _ (?g l) = _ => assert (G : forall l l' z, Forall2 (fun x y => Wire P W r c s nm tg x t y) l l' -> g l = Some z -> l' = z) end.
        { clear -IH. intros m m' z F. revert z. induction F as [|p q l l' Hp F IHF]; intros z E; [now injection E|].
          destruct (form1 t p) as [y|] eqn:E1; [|discriminate].
          match type of E with match ?g with _ => _ end = _ => destruct g as [r'|] eqn:E2; [|discriminate] end. injection E as <-.
          f_equal; [exact (IH t _ _ _ _ _ E1 Hp)|exact (IHF _ eq_refl)]. }
        match type of H with option_map _ ?g = _ => destruct g as [z|] eqn:Z; [|discriminate] end. injection H as <-. f_equal. exact (G _ _ _ FW Z).
      - destruct v; try discriminate. inversion Hw; subst. congruence.
      - injection H as <-. now inversion Hw.
      - inversion Hw; subst. eapply IH; eauto.
    Qed.

    Definition fform1 (f : fielddef) (v : pyval) : option pyval :=
      match f_serializer f with
      | None => form1 (f_type f) v
      | Some (FFun g) => match g v with Ok x => Some x | _ => None end
      | Some _ => None
      end.
    Lemma fform1_ok r c s nm d f v x y : fform1 f v = Some x -> FWire P W r c s nm d f v y -> y = x.
    Proof.
      unfold fform1. intros H [[E Hw]|[g [E Hg]]]; rewrite E in H.
      - eapply form1_ok; eauto.
      - rewrite Hg in H. congruence.
    Qed.
    Definition codedb (f : fielddef) (v : pyval) : bool :=
      match f_serializer f with
      | None => true
      | Some (FFun g) => match g v with
          | Ok x => scalar_val x &&
              implb (read f) (match f_deserializer f with Some (FFun h) => match h x with Ok w => val_eqb w v | _ => false end | _ => false end &&
                              implb (sk && val_eqb x VNone) (absent_okb f v))
          | _ => false end
      | Some _ => false
      end.
    Lemma codedb_ok f v : codedb f v = true -> f_serializer f <> None ->
      exists x, scalar_val x = true /\ coded f v x /\ (read f = true -> decoded f x v /\ (sk = true -> x = VNone -> absent_ok f v)).
    Proof.
      unfold codedb, coded, decoded. intros H N. destruct (f_serializer f) as [[|g]|]; try discriminate; [|congruence]. destruct (g v) as [x| |] eqn:G; try discriminate.
      apply andb_prop in H as [H1 H2]. exists x. split; [exact H1|]. split; [eauto|]. intros R. rewrite R in H2. cbn [implb] in H2. apply andb_prop in H2 as [H2 H3]. split.
      - destruct (f_deserializer f) as [[|h]|]; try discriminate. exists h. split; [reflexivity|]. destruct (h x); try discriminate. f_equal. now apply val_eqb_eq.
      - intros -> ->. apply absent_okb_ok. cbn in H3. exact H3.
    Qed.

    Definition safe_skipb (d : classdef) (f : fielddef) (v : pyval) : bool :=
      no_skipb d f ||
      match fform1 f v with
      | Some x => match drops P d f x with
                  | Some (Ok b) => implb (b && read f) (absent_okb f v)
                  | Some _ => false
                  | None => true
                  end
      | None => false
      end.
    Lemma safe_skipb_ok d f v : safe_skipb d f v = true -> safe_skip P W d f v.
    Proof.
      unfold safe_skipb, safe_skip. intros H r c s x Hx. apply orb_prop in H as [H|H].
      - apply no_skipb_ok in H. now rewrite H.
      - destruct (fform1 f v) as [y|] eqn:E; [|discriminate]. pose proof (fform1_ok _ _ _ _ _ _ _ _ _ E Hx) as ->.
        destruct (drops P d f y) as [[b| |]|]; try discriminate; auto. exists b. split; [reflexivity|]. intros -> R. rewrite R in H. now apply absent_okb_ok.
    Qed.
    Definition dict_kindb (k : dictk) (vt : pytype) (m : mapkind) : bool :=
      match k with
      | DkDefault => match factory_of vt with Some f => if mapkind_eq_dec m (MDefault f) then true else false | None => false end
      | _ => if mapkind_eq_dec m MDict then true else false
      end.
    Lemma dict_kindb_ok k vt m : dict_kindb k vt m = true -> dict_kind k vt m.
    Proof.
      unfold dict_kindb, dict_kind. destruct k; try (destruct (mapkind_eq_dec m MDict); congruence).
      destruct (factory_of vt); [|discriminate]. destruct (mapkind_eq_dec m (MDefault s)); congruence.
    Qed.
    Definition bare_valb (b : bare) (v : pyval) : bool :=
      match b, v with
      | BList _, VSeq KList l | BTuple, VSeq KTuple l | BDeque, VSeq KDeque l => forallb rawb l
      | BDict (DkDict | DkMapping | DkMutMapping), VMap MDict _ => rawb v
      | BSet (SkSet | SkAbs | SkMut), VSeq KSet l => forallb rawb l && distinctb l && forallb frozen l
      | BCounter, VMap MCounter l => rawb (VMap MDict l)
      | _, _ => false
      end.
    Lemma raw_all l : forallb rawb l = true -> Forall raw l.
    Proof. intros H. apply Forall_forall. rewrite forallb_forall in H. auto. Qed.
    Lemma bare_valb_ok b v : bare_valb b v = true -> bare_val P raw b v.
    Proof.
      destruct b; destruct v; try discriminate; destruct k; try discriminate; try (destruct k0); try discriminate; cbn [bare_valb bare_val]; auto using raw_all.
      all: intros H; apply andb_prop in H as [H H3]; apply andb_prop in H as [H1 H2]; repeat split; auto using raw_all, distinctb_ok.
    Qed.
    Definition is_isome (o : option pyval) : bool := match o with Some _ => true | None => false end.

    Fixpoint wtb (n : nat) (v : pyval) (t : pytype) {struct n} : bool :=
      match n with O => false | S n =>
      match t with
      | TPrim p | TNewType _ p => prim_val p v
      | TPrimSub c p => match v with VSub c' x => String.eqb c' c && prim_val p x | _ => false end
      | TNone => val_eqb v VNone
      | TAny => plain v && rawb v
      | TUnion l =>
          if is_opt t then
            match l with
            | [a; TNone] => negb (is_none a) && (val_eqb v VNone || nonnull P a && wtb n v a)
            | _ => false
            end
          else existsb (fun a => wtb n v a) l
      | TList _ a => match v with VSeq KList l => forallb (fun x => wtb n x a) l | _ => false end
      | TSet k a => match v with VSeq s l => (if seqkind_eq_dec s (set_kind k) then true else false) && forallb (fun x => wtb n x a) l && distinctb l | _ => false end
      | TDeque a => match v with VSeq KDeque l => forallb (fun x => wtb n x a) l | _ => false end
      | TVarTuple a => match v with VSeq KTuple l => forallb (fun x => wtb n x a) l | _ => false end
      | TTuple ts => match v with VSeq KTuple l => (fix go ts l := match ts, l with
            | [], [] => true | a :: ts, x :: l => wtb n x a && go ts l | _, _ => false end) ts l | _ => false end
      | TCounter a => match v with
          | VMap MCounter l => forallb (fun kv => wtb n (fst kv) a && match snd kv with VInt _ => true | _ => false end) l && distinctb (map fst l)
          | _ => false end
      | TDict k a b => match v with
          | VMap m l => dict_kindb k b m && forallb (fun kv => wtb n (fst kv) a && wtb n (snd kv) b) l && distinctb (map fst l)
          | _ => false end
      | TBare b => bare_valb b v
      | TEnum c => match v with VEnum c' m => String.eqb c' c && is_isome (enum_member P c m) | _ => false end
      | TLit l => existsb (fun x => val_eqb v (lit_val x)) l
      | TStr k => match v with VInst k' s => String.eqb k' k && match w_ctor W k (VStr s) with Ok x => val_eqb x v | _ => false end | _ => false end
      | TDate k => match v with VDate k' s => String.eqb k' k && match w_iso W k (VStr s) with Ok x => val_eqb x v | _ => false end | _ => false end
      | TAlias _ a => wtb n v a
      | TClass c => match v with
          | VObj c' attrs => String.eqb c' c && match get_class P c with
              | Some d =>
                  (fix go fs l := match fs, l with
                   | [], [] => true
                   | f :: fs, nv :: l =>
                       String.eqb (fst nv) (f_name f) &&
                       implb (written f || read f) (wtb n (snd nv) (f_type f)) &&
                       (read f || match dflt f with Some (Ok x) => val_eqb x (snd nv) | _ => false end) &&
                       implb (read f && negb (written f)) (absent_okb f (snd nv)) &&
                       implb (sk && read f && written f && negb (c_transparent d))
                         (nonnull P (f_type f) && implb (val_eqb (snd nv) VNone) (absent_okb f (snd nv))) &&
                       implb (written f && negb (c_transparent d)) (safe_skipb d f (snd nv)) &&
                       implb (written f) (codedb f (snd nv)) &&
                       go fs l
                   | _, _ => false end) (c_fields d) attrs &&
                  match c_post d v with Ok x => val_eqb x v | _ => false end
              | None => false end
          | _ => false end
      | _ => false
      end end.

    Lemma wtb_ok : forall n v t, wtb n v t = true -> wt P W sk Q raw v t.
    Proof.
      induction n; intros v t H; [discriminate|]. destruct t; cbn [wtb] in H; try discriminate.
      - now constructor.
      - destruct v; try discriminate. apply andb_prop in H as [H1 H2]. apply String.eqb_eq in H1. subst. now constructor.
      - now constructor.
      - apply val_eqb_eq in H. subst. constructor.
      - apply andb_prop in H as [H1 H2]. constructor; auto.
      - destruct (is_opt (TUnion l)) eqn:O.
        + destruct l as [|a [|b [|? ?]]]; try discriminate; [|destruct b; discriminate]. destruct b; try discriminate. apply andb_prop in H as [H1 H2]. rewrite negb_true_iff in H1.
          apply orb_prop in H2 as [H2|H2].
          * apply val_eqb_eq in H2. subst. now constructor.
          * apply andb_prop in H2 as [H2 H3]. destruct (pyval_eq_dec v VNone); [subst; now constructor|]. constructor; auto.
        + apply existsb_exists in H as [a [H1 H2]]. econstructor; eauto.
      - destruct v; try discriminate; destruct k0; try discriminate. constructor. apply Forall_forall. rewrite forallb_forall in H. auto.
      - destruct v; try discriminate. apply andb_prop in H as [H H3]. apply andb_prop in H as [H1 H2]. destruct (seqkind_eq_dec k0 (set_kind k)); [|discriminate]. subst.
        constructor; auto using distinctb_ok. apply Forall_forall. rewrite forallb_forall in H2. auto.
      - destruct v; try discriminate; destruct k; try discriminate. constructor. apply Forall_forall. rewrite forallb_forall in H. auto.
      - destruct v; try discriminate; destruct k; try discriminate. apply andb_prop in H as [H1 H2]. constructor; auto using distinctb_ok.
        apply Forall_forall. rewrite forallb_forall in H1. intros kv Hkv. specialize (H1 _ Hkv). cbv beta in H1. apply andb_prop in H1 as [H1 H3].
        split; auto. destruct (snd kv); try discriminate. eauto.
      - destruct v; try discriminate. apply andb_prop in H as [H H3]. apply andb_prop in H as [H1 H2]. constructor; auto using distinctb_ok, dict_kindb_ok.
        apply Forall_forall. rewrite forallb_forall in H2. intros kv Hkv. specialize (H2 _ Hkv). cbv beta in H2. apply andb_prop in H2 as [H2 H4]. auto.
      - destruct v; try discriminate; destruct k; try discriminate. constructor. revert l0 H. induction l; intros [|x r] H; try discriminate; constructor.
        + apply andb_prop in H as [H1 H2]. auto.
        + apply andb_prop in H as [H1 H2]. auto.
      - destruct v; try discriminate; destruct k; try discriminate. constructor. apply Forall_forall. rewrite forallb_forall in H. auto.
      - constructor. now apply bare_valb_ok.
      - destruct v; try discriminate. apply andb_prop in H as [H1 H2]. apply String.eqb_eq in H1. subst. destruct (enum_member P c m) eqn:E; [|discriminate]. econstructor; eauto.
      - destruct v; try discriminate. apply andb_prop in H as [H1 H2]. apply String.eqb_eq in H1. subst.
        destruct (get_class P c) as [d|] eqn:Hd; [|discriminate]. apply andb_prop in H2 as [H2 H3].
        assert (ID : In d (p_classes P)).
        { clear -Hd. unfold get_class in Hd. induction (p_classes P); cbn in *; [discriminate|]. destruct (String.eqb (c_id a) c); [left; congruence|auto]. }
        econstructor; eauto.
        + clear H3; revert l H2. clear -IHn. generalize (c_fields d). induction l; intros [|nv r] H2; try discriminate; constructor.
          * repeat (apply andb_prop in H2 as [H2 ?]). split; [now apply String.eqb_eq|]. split; [|split; [|split; [|split; [|split]]]].
            -- intros E. rewrite E in *. cbn [implb] in *. auto.
            -- intros E. rewrite E in *. cbn [orb] in *. destruct (dflt a) as [[x| |]|]; try discriminate. f_equal. f_equal. now apply val_eqb_eq.
            -- intros E E'. rewrite E, E' in *. cbn [implb negb andb] in *. now apply absent_okb_ok.
            -- intros E1 E2 E3 E4. rewrite E1, E2, E3, E4 in *. cbn [implb negb andb] in *.
               match goal with X : nonnull _ _ && _ = true |- _ => apply andb_prop in X as [? X]; split; auto; intros E; rewrite E in X end.
               rewrite E. apply absent_okb_ok. assumption.
            -- intros E1 E2. rewrite E1, E2 in *. cbn [implb negb andb] in *. now apply safe_skipb_ok.
            -- intros E. rewrite E in *. cbn [implb] in *. now apply codedb_ok.
          * apply andb_prop in H2 as [H2 H4]. exact (IHl r H4).
        + destruct (c_post d (VObj c l)); try discriminate. f_equal. now apply val_eqb_eq.
      - apply existsb_exists in H as [x [H1 H2]]. apply val_eqb_eq in H2. subst. now constructor.
      - destruct v; try discriminate. apply andb_prop in H as [H1 H2]. apply String.eqb_eq in H1. subst. constructor.
        destruct (w_ctor W k (VStr s)); try discriminate. f_equal. now apply val_eqb_eq.
      - destruct v; try discriminate. apply andb_prop in H as [H1 H2]. apply String.eqb_eq in H1. subst. constructor.
        destruct (w_iso W k (VStr s)); try discriminate. f_equal. now apply val_eqb_eq.
      - constructor. auto.
    Qed.
  End Values.
End Decide.
