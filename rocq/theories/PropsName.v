(** Names: of the functions generated for unions and literals (C37), and of the entries of fields (C23). *)
From Coq Require Import String List ZArith Bool Ascii Lia DecimalString DecimalZ.
From Verif Require Import Base PyVal PyType Program Compat Syntax SeRender DeRender Eval Facts Mono Spec Cover Depend PropsSe PropsDe Ex.
Import ListNotations.
Open Scope string_scope.
Open Scope list_scope.

(** Only letters and digits *)
Definition clean (s : string) : Prop := Forall (fun c => is_alnum c = true) (list_ascii_of_string s).

Lemma sanitize_clean s : clean s -> sanitize s = s.
Proof. induction s as [|c s IH]; intros H; [reflexivity|]. inversion H as [|? ? H1 H2]; subst. cbn [sanitize]. rewrite H1. now rewrite IH. Qed.
Lemma sanitize_app a b : sanitize (a ++ b) = (sanitize a ++ sanitize b)%string.
Proof. induction a as [|c a IH]; [reflexivity|]. cbn. now rewrite IH. Qed.
Lemma append_assoc (a b c : string) : ((a ++ b) ++ c = a ++ b ++ c)%string.
Proof. induction a as [|x a IH]; cbn; [reflexivity|]. now rewrite IH. Qed.
Lemma app_inj_l (a b c : string) : (a ++ b = a ++ c)%string -> b = c.
Proof. induction a as [|x a IH]; cbn; [auto|]. intros H. injection H as H. auto. Qed.

(** Joining clean strings with underscores *)
Lemma sanitize_join l : Forall clean l -> sanitize (sconcat "_" l) = sconcat "_" l.
Proof.
  induction 1 as [|x l Hx H IH]; [reflexivity|]. cbn [sconcat]. destruct l as [|y l]; [now apply sanitize_clean|].
  rewrite !sanitize_app, IH, sanitize_clean by exact Hx. reflexivity.
Qed.
Lemma clean_split x y r r' : clean x -> clean y -> (x ++ "_" ++ r = y ++ "_" ++ r')%string -> x = y /\ r = r'.
Proof.
  revert y. induction x as [|c x IH]; intros [|c' y] Hx Hy E; cbn in E.
  - injection E as ->. auto.
  - injection E as <- _. inversion Hy; discriminate.
  - injection E as -> _. inversion Hx; discriminate.
  - injection E as <- E. inversion Hx; inversion Hy; subst. destruct (IH y) as [-> ->]; auto.
Qed.
Lemma clean_no_sep x y r : clean x -> clean y -> x = (y ++ "_" ++ r)%string -> False.
Proof.
  revert x. induction y as [|c y IH]; intros [|c' x] Hx Hy E; cbn in E; try discriminate.
  - injection E as -> _. inversion Hx; discriminate.
  - injection E as -> E. inversion Hx; inversion Hy; subst. eauto.
Qed.
Lemma join_inj l l' : Forall clean l -> Forall clean l' -> l <> [] -> l' <> [] -> sconcat "_" l = sconcat "_" l' -> l = l'.
Proof.
  intros F. revert l'. induction F as [|x l Hx F IH]; intros l' F' N N' E; [congruence|]. destruct F' as [|y l' Hy F']; [congruence|].
  cbn [sconcat] in E. destruct l as [|x' l], l' as [|y' l'].
  - now rewrite E.
  - exfalso. eapply (clean_no_sep x y); eauto.
  - exfalso. symmetry in E. eapply (clean_no_sep y x); eauto.
  - destruct (clean_split _ _ _ _ Hx Hy E) as [-> E']. f_equal. apply IH; auto; discriminate.
Qed.

Section Names.
  Variable P : program.

  (** Two unions whose members have names of letters and digits share a function only if their members have the same names in the
      same order. *)
  Theorem C37_union_partial pre l l' :
    l <> [] -> l' <> [] -> Forall (fun t => clean (typename P t)) l -> Forall (fun t => clean (typename P t)) l' ->
    union_func_name P pre l = union_func_name P pre l' -> map (typename P) l = map (typename P) l'.
  Proof.
    intros N N' C C' E. unfold union_func_name in E. rewrite !sanitize_app in E. apply app_inj_l, app_inj_l in E.
    assert (M : forall l, Forall (fun t => clean (typename P t)) l -> Forall clean (map (typename P) l)) by (intros ? F; now apply Forall_map).
    rewrite !sanitize_join in E by auto. apply join_inj in E; auto; destruct l, l'; try congruence; discriminate.
  Qed.

  (** In a class whose unions have members with such names, no two of them alike, every union of a field gets a function for
      exactly its members. *)
  Theorem C37_own_union_partial d pre f l :
    (forall l, reach P d (TUnion l) -> l <> [] /\ Forall (fun t => clean (typename P t)) l) ->
    (forall l l' t t', reach P d (TUnion l) -> reach P d (TUnion l') -> In t l -> In t' l' -> typename P t = typename P t' -> t = t') ->
    In f (c_fields d) -> f_skip f = false -> sub_ty (TUnion l) (f_type f) ->
    find_union P d pre (union_func_name P pre l) = Some l.
  Proof.
    intros HC HN Hf SK S. apply find_union_ok; [|eapply iter_unions_field; eauto].
    intros pre' l1 l2 R1 R2 E. destruct (HC _ R1) as [N1 C1], (HC _ R2) as [N2 C2]. apply C37_union_partial in E; auto.
    pose proof (fun t t' => HN l1 l2 t t' R1 R2) as HN'. clear - E HN'. revert l2 E HN'.
    induction l1 as [|a l1 IH]; intros [|b l2] E HN; try discriminate; [reflexivity|]. injection E as E1 E2. f_equal.
    - apply HN; simpl; auto.
    - apply IH; [exact E2|]. intros t t' I I'. apply HN; simpl; auto.
  Qed.

  Lemma z_str_inj a b : z_str a = z_str b -> a = b.
  Proof.
    assert (G : forall z, NilZero.int_of_string (z_str z) = Some (Z.to_int z)).
    { intros z. unfold z_str. rewrite NilZero.isi; [reflexivity| |].
      - destruct z; cbn; [discriminate| |discriminate]. pose proof (DecimalPos.Unsigned.to_uint_nonnil p). congruence.
      - destruct z; cbn; [discriminate|discriminate|]. pose proof (DecimalPos.Unsigned.to_uint_nonnil p). congruence. }
    intros H. apply (f_equal NilZero.int_of_string) in H. rewrite !G in H. injection H as H. apply (f_equal Z.of_int) in H. now rewrite !DecimalZ.of_to in H.
  Qed.

  Definition lit_parts (a : litval) : list string := [lit_str P a; lit_typename P a].
  Lemma join_parts l : sconcat "_" (map (fun a => (lit_str P a ++ "_" ++ lit_typename P a)%string) l) = sconcat "_" (concat (map lit_parts l)).
  Proof.
    induction l as [|a l IH]; [reflexivity|]. cbn [map concat lit_parts app]. destruct l as [|b l]; [reflexivity|].
    cbn [map concat lit_parts app] in *. cbn [sconcat] in *. rewrite IH. now rewrite !append_assoc.
  Qed.
  Lemma not_enum a : clean (lit_str P a) -> match a with LEnum _ _ => False | _ => True end.
  Proof.
    intros C. destruct a; auto. cbn in C. unfold clean in C. rewrite Forall_forall in C. specialize (C "."%char).
    assert (I : In "."%char (list_ascii_of_string (enum_name P c ++ String "." m))).
    { clear C. induction (enum_name P c) as [|x s IH]; [now left|right; exact IH]. }
    apply C in I. discriminate.
  Qed.
  Lemma clean_literal a : clean (lit_str P a) -> Forall clean (lit_parts a).
  Proof.
    intros C. constructor; [exact C|]. constructor; [|constructor]. apply not_enum in C. destruct a; try contradiction; repeat constructor.
  Qed.
  Lemma same_literal a b : clean (lit_str P a) -> clean (lit_str P b) -> lit_parts a = lit_parts b -> a = b.
  Proof.
    intros CA CB E. injection E as E1 E2. apply not_enum in CA, CB.
    destruct a, b; try contradiction; cbn in E1, E2; try discriminate; try reflexivity.
    - f_equal. now apply z_str_inj.
    - now subst.
    - now destruct b, b0.
  Qed.

  (** Two Literal types whose values are written with letters and digits only (so neither negative numbers nor enum members) share a
      function only if they list the same values in the same order. *)
  Theorem C37_literal_partial l l' :
    l <> [] -> l' <> [] -> Forall (fun a => clean (lit_str P a)) l -> Forall (fun a => clean (lit_str P a)) l' ->
    literal_func_name P l = literal_func_name P l' -> l = l'.
  Proof.
    intros N N' C C' E. unfold literal_func_name in E. rewrite !sanitize_app, !join_parts in E. apply app_inj_l in E.
    assert (M : forall l, Forall (fun a => clean (lit_str P a)) l -> Forall clean (concat (map lit_parts l))).
    { induction 1 as [|a r Ha F IH]; [constructor|]. cbn [map concat]. apply Forall_app. split; [now apply clean_literal|exact IH]. }
    rewrite !sanitize_join in E by auto. apply join_inj in E; auto; [|destruct l; [congruence|discriminate]|destruct l'; [congruence|discriminate]].
    clear - E C C'. revert l' C' E. induction C as [|a l Ha C IH]; intros [|b l'] C' E; try reflexivity; try discriminate.
    inversion C' as [|? ? Hb C'']; subst. cbn [map concat lit_parts app] in E. injection E as E1 E2 E3. f_equal; [|now apply IH].
    apply same_literal; auto. unfold lit_parts. now rewrite E1, E2.
  Qed.

  Theorem C37_own_literal_partial cx f l :
    (forall l, reach P (x_cls cx) (TLit l) -> l <> [] /\ Forall (fun a => clean (lit_str P a)) l) ->
    In f (c_fields (x_cls cx)) -> f_skip f = false -> sub_ty (TLit l) (f_type f) -> (forall a n, sub_ty (TAlias n a) (f_type f) -> has_lit a = false) ->
    literal_args P cx (literal_func_name P l) = Some l.
  Proof.
    intros HC Hf SK S NA. apply literal_args_ok; [|eapply iter_literals_field; eauto].
    intros l1 l2 R1 R2 E. destruct (HC _ R1) as [N1 C1], (HC _ R2) as [N2 C2]. now apply C37_literal_partial in E.
  Qed.
End Names.

(** ** C23 *)
Section Wire.
  Variables (P : program) (W : world) (K : list (tagging * pytype)).

  (** Of all the entries of a mapping, a field looks only at the one under its wire name and at those under its aliases: under its
      rename if it has one, else under its name converted by rename_all. *)
  Theorem C23_read_partial n tg t d m kvs kvs' ro dn o o' f :
    targets P t d -> dictlike d -> In f (c_fields d) -> read f = true -> f_flatten f = false ->
    (f_alias f = [] \/ no_inner (f_type f) = true /\ wire_name W d f = Some (f_name f)) ->
    (forall k, In k (key_names W d f) -> skey P kvs k = skey P kvs' k) ->
    from_dict P W K n (tg, t) (VMap m kvs) ro dn = Ok o -> from_dict P W K n (tg, t) (VMap m kvs') ro dn = Ok o' ->
    exists attrs attrs' v, c_post d (VObj (c_id d) attrs) = Ok o /\ c_post d (VObj (c_id d) attrs') = Ok o' /\
      slookup (f_name f) attrs = Some v /\ slookup (f_name f) attrs' = Some v.
  Proof.
    intros HT HD Hf R FL AL AG H H'.
    destruct (from_dict_object _ _ _ _ _ _ _ _ _ _ _ HT HD (map_not_inst _ _ _ _ _ HT) H) as (n1 & known & attrs & NN & _ & A & _ & B & _).
    destruct (from_dict_object _ _ _ _ _ _ _ _ _ _ _ HT HD (map_not_inst _ _ _ _ _ HT) H') as (n2 & known' & attrs' & NN' & _ & A' & _ & B' & _).
    destruct (B f Hf R) as (v & V1 & V2 & _). destruct (B' f Hf R) as (v' & V1' & V2' & _).
    apply takes_plain in V2; [|exact FL]. apply takes_plain in V2'; [|exact FL]. assert (n2 = n1) by congruence. subst n2.
    unfold de_value in V2, V2'. inv_bind V2. rewrite Hb in V2'. cbn [bind] in V2'.
    rewrite (field_agree P W (fun k => In k (key_names W d f)) m kvs kvs' d f a _ _ AG) in V2; [|clear - FL AL|exact Hb].
    - assert (v' = v) by congruence. subst v'. exists attrs, attrs', v. auto.
    - unfold asks. split; [exact FL|]. unfold key_names. split; [intros k Hk; rewrite Hk; now left|].
      destruct AL as [->|(NI & WN)]; [split; [constructor|]; split; [congruence|now left]|].
      rewrite WN. split; [apply Forall_forall; intros; now right|]. split; [now left|right; now left].
  Qed.
End Wire.

Module NameEx.
  Definition l1 := [TClass "A"; TClass "B"; TPrim PInt].
  Definition l2 := [TClass "AB"; TPrim PInt].
  Definition lits := [LStr "r"; LInt 12; LBool true].
  Definition C := cls "C" [fld "a" (TUnion l1); fld "b" (TList LList (TUnion l2)); fld "m" (TLit lits); fld "n" (TLit [LStr "r"; LStr "12"])].
  Definition P := prog [cls "A" []; cls "B" []; cls "AB" []; C] [].
  Example clean_names : Forall (fun t => clean (typename P t)) l1 /\ Forall (fun t => clean (typename P t)) l2.
  Proof. split; repeat constructor. Qed.
  Example differ : union_func_name P "union_de" l1 <> union_func_name P "union_de" l2.
  Proof. intros E. apply C37_union_partial in E; [vm_compute in E; discriminate|discriminate|discriminate|apply clean_names|apply clean_names]. Qed.
  Lemma reach_c t : reach P C t -> In t [TClass "C"; TUnion l1; TList LList (TUnion l2); TUnion l2; TLit lits; TLit [LStr "r"; LStr "12"]; TClass "A"; TClass "B"; TClass "AB"; TPrim PInt].
  Proof.
    assert (SUB : forall f t, In f (c_fields C) -> sub_ty t (f_type f) ->
      In t [TClass "C"; TUnion l1; TList LList (TUnion l2); TUnion l2; TLit lits; TLit [LStr "r"; LStr "12"]; TClass "A"; TClass "B"; TClass "AB"; TPrim PInt]).
    { intros f u Hf S.
      repeat (destruct Hf as [<-|Hf]; [cbn [f_type fld] in S; unfold l1, l2 in S; repeat match goal with
        | H : In _ (_ :: _) |- _ => destruct H as [<-|H]
        | H : In _ [] |- _ => destruct H
        | S : sub_ty _ _ |- _ => inversion S; subst; clear S
        end; cbn [In]; repeat (first [left; reflexivity|right])|]). destruct Hf. }
    intros H. induction H as [|f t Hf _ S|c d' f t H IH G Hf _ S].
    - now left.
    - eauto.
    - cbn [In] in IH. repeat destruct IH as [IH|IH]; try discriminate; try contradiction; injection IH as <-; vm_compute in G; injection G as <-; try (now destruct Hf); eapply SUB; eauto.
  Qed.
  Example own_applies : find_union P C "union_de" (union_func_name P "union_de" l2) = Some l2.
  Proof.
    refine (C37_own_union_partial P C "union_de" (fld "b" (TList LList (TUnion l2))) l2 _ _ _ eq_refl _).
    - intros l R. apply reach_c in R. simpl in R. repeat destruct R as [R|R]; try discriminate; try contradiction; injection R as <-; (split; [discriminate|apply clean_names]).
    - intros l l' t t' R R' I I' E. apply reach_c in R. apply reach_c in R'. simpl in R, R'.
      repeat destruct R as [R|R]; try discriminate; try contradiction; injection R as <-;
      repeat destruct R' as [R'|R']; try discriminate; try contradiction; injection R' as <-; simpl in I, I';
      repeat (destruct I as [<-|I]; [|]); try contradiction; repeat (destruct I' as [<-|I']; [|]); try contradiction; try reflexivity; vm_compute in E; discriminate.
    - cbn [In c_fields C cls]; repeat (first [left; reflexivity|right]).
    - repeat constructor.
  Qed.
  Example literal_applies : literal_args P (de_ctx P C true None None None None) (literal_func_name P lits) = Some lits.
  Proof.
    refine (C37_own_literal_partial P (de_ctx P C true None None None None) (fld "m" (TLit lits)) lits _ _ eq_refl _ _).
    - intros l R. apply reach_c in R. simpl in R. repeat destruct R as [R|R]; try discriminate; try contradiction; injection R as <-; (split; [discriminate|repeat constructor]).
    - cbn [In c_fields C cls]; repeat (first [left; reflexivity|right]).
    - constructor.
    - intros a n S. inversion S.
  Qed.
  (* rename overrides rename_all; neither the name nor its conversion is looked at *)
  Definition fr := with_names (Some "r") [] (fld "name" TInt).
  Definition R := clsx "R" [fr; fld "y" TInt] (Some "pascalcase") TagExternal TcStrict false false.
  Definition PR := prog [R] [].
  Definition data1 := [(VStr "r", VInt 1); (VStr "Y", VInt 2); (VStr "name", VInt 8)].
  Definition data2 := [(VStr "Name", VInt 9); (VStr "Y", VInt 3); (VStr "r", VInt 1)].
  Example read_applies : exists attrs attrs' v, c_post R (VObj "R" attrs) = Ok (VObj "R" [("name", VInt 1); ("y", VInt 2)]) /\
    c_post R (VObj "R" attrs') = Ok (VObj "R" [("name", VInt 1); ("y", VInt 3)]) /\ slookup "name" attrs = Some v /\ slookup "name" attrs' = Some v.
  Proof.
    refine (C23_read_partial PR W0 [] 20 TagExternal (TClass "R") R MDict data1 data2 None None _ _ fr _ _ _ eq_refl eq_refl (or_introl eq_refl) _ _ _).
    - exists "R". repeat split.
    - split; [reflexivity|]. repeat constructor; simpl; intuition discriminate.
    - now left.
    - intros k [<-|[]]. reflexivity.
    - vm_compute. reflexivity.
    - vm_compute. reflexivity.
  Qed.
End NameEx.

Print Assumptions C37_union_partial.
Print Assumptions C37_own_union_partial.
Print Assumptions C37_literal_partial.
Print Assumptions C37_own_literal_partial.
Print Assumptions C23_read_partial.
