(** Containers without element type: C61. *)
From Coq Require Import String List ZArith Bool Lia.
From Verif Require Import Base PyVal PyType Program Compat Syntax SeRender DeRender Eval Facts Mono Spec Cover Depend SeRT DeRT Transport PropsSe PropsDe PropsUnion PropsField Decide Ex.
Import ListNotations.
Open Scope string_scope.
Open Scope list_scope.

Section Bare.
  Variables (P : program) (W : world) (K : list (tagging * pytype)).
  Notation es := (enum_scalar P).

  (** * Specification *)

  (** What iterating over a value gives: the elements of a sequence or set, the keys of a mapping, the characters of a text *)
  Inductive elements : pyval -> list pyval -> Prop :=
  | el_seq k l : elements (VSeq k l) l
  | el_map k l : elements (VMap k l) (map fst l)
  | el_text v s : scalar es v = Some (SS s) -> elements v (map (fun c => VStr (String c "")) (list_ascii_of_string s)).

  (** A set has every element once. *)
  Definition once (l s : list pyval) : Prop :=
    (forall x, In x s -> In x l) /\ (forall x, In x l -> In x s \/ exists y, In y s /\ eqv P y x = true) /\
    (forall a x b y c, s = a ++ x :: b ++ y :: c -> eqv P x y = false).

  (** Values for which equality is an equivalence: no floats, no containers *)
  Definition atom (x : pyval) : Prop :=
    match scalar es x with
    | Some (SF _) => False
    | Some _ => True
    | None => match x with VNone | VEnum _ _ | VInst _ _ | VDate _ _ | VOpaque _ _ => True | _ => False end
    end.
  Fixpoint occurrences (x : pyval) (l : list pyval) : nat :=
    match l with [] => 0 | y :: r => (if eqv P y x then 1 else 0) + occurrences x r end.
  Definition tally (n : nat) : option pyval := if Nat.eqb n 0 then None else Some (VInt (Z.of_nat n)).
  Definition counts (l : list pyval) (m : list (pyval * pyval)) : Prop :=
    Forall atom l -> forall x, atom x -> dget es m x = tally (occurrences x l).

  (** What a container type without arguments makes of a datum *)
  Inductive made : bare -> pyval -> pyval -> Prop :=
  | md_list k x l : elements x l -> made (BList k) x (VSeq KList l)
  | md_tuple x l : elements x l -> made BTuple x (VSeq KTuple l)
  | md_deque x l : elements x l -> made BDeque x (VSeq KDeque l)
  | md_set k x l s : elements x l -> once l s -> made (BSet k) x (VSeq KSet s)
  | md_counter_map k l : made BCounter (VMap k l) (VMap MCounter l)
  | md_counter_none : made BCounter VNone (VMap MCounter [])
  | md_counter x l m : elements x l -> (forall k l, x <> VMap k l) -> counts l m -> made BCounter x (VMap MCounter m)
  | md_dict k x : k <> DkDefault -> made (BDict k) x x.

  (** * Lemmas *)

  Lemma iter_elements x l : iter P x = Ok l -> elements x l.
  Proof.
    intros H. unfold iter in H.
    assert (T : match scal_of P x with Some (SS s) => Ok (chars s) | _ => Raise XType end = Ok l -> elements x l).
    { unfold scal_of. destruct (scalar es x) as [[]|] eqn:E; try discriminate. intros X. injection X as <-. now apply el_text. }
    destruct x; try (apply T; exact H); injection H as <-; constructor.
  Qed.

  Lemma dedup_spec l : forall acc all, once all acc -> once (all ++ l) (dedup es acc l).
  Proof.
    induction l as [|x r IH]; intros acc all H; cbn [dedup]; [now rewrite app_nil_r|].
    replace (all ++ x :: r) with ((all ++ [x]) ++ r) by (rewrite <- app_assoc; reflexivity). apply IH. clear IH.
    destruct H as (H1 & H2 & H3). destruct (vmem es x acc) eqn:M.
    - unfold vmem in M. apply existsb_exists in M as (y & Y & E). split; [|split; [|exact H3]].
      + intros z Z. apply in_or_app. left. auto.
      + intros z Z. apply in_app_or in Z as [Z|[<-|[]]]; [auto|right; eauto].
    - split; [|split].
      + intros z Z. apply in_app_or in Z as [Z|Z]; apply in_or_app; [left; auto|now right].
      + intros z Z. apply in_app_or in Z as [Z|[<-|[]]].
        * destruct (H2 z Z) as [I|(y & I & E)]; [left; apply in_or_app; now left|right; exists y; split; [apply in_or_app; now left|exact E]].
        * left. apply in_or_app. right. now left.
      + intros a z b y c E. destruct c as [|c0 c'] using rev_ind.
        * replace (a ++ z :: b ++ [y]) with ((a ++ z :: b) ++ [y]) in E by (rewrite <- app_assoc; reflexivity). apply app_inj_tail in E as [-> ->].
          unfold vmem in M. apply not_true_iff_false. intros Q. apply not_true_iff_false in M. apply M. apply existsb_exists. exists z. split; [|exact Q].
          apply in_or_app. right. now left.
        * replace (a ++ z :: b ++ y :: c' ++ [c0]) with ((a ++ z :: b ++ y :: c') ++ [c0]) in E by (rewrite <- !app_assoc; cbn [app]; rewrite <- app_assoc; reflexivity).
          apply app_inj_tail in E as [-> _]. eapply H3. reflexivity.
  Qed.

  (** Equality of atoms *)
  Lemma eqv_scal x y s s' : scalar es x = Some s -> scalar es y = Some s' -> eqv P x y = scal_eqb s s'.
  Proof. intros X Y. unfold eqv. destruct x; cbn [py_eqb]; rewrite X, Y; reflexivity. Qed.
  Lemma eqv_mixed x y s : scalar es x = Some s /\ scalar es y = None \/ scalar es x = None /\ scalar es y = Some s -> eqv P x y = false.
  Proof. intros [[X Y]|[X Y]]; unfold eqv; destruct x; cbn [py_eqb]; rewrite X, Y; reflexivity. Qed.
  Lemma atom_eq x y : atom x -> atom y ->
    (eqv P x y = true <-> (exists s, scalar es x = Some s /\ scalar es y = Some s) \/ (scalar es x = None /\ scalar es y = None /\ x = y)).
  Proof.
    intros A B. unfold atom in A, B. destruct (scalar es x) as [s|] eqn:X, (scalar es y) as [s'|] eqn:Y.
    - rewrite (eqv_scal _ _ _ _ X Y). split.
      + intros E. left. exists s. split; [reflexivity|]. f_equal. destruct s, s'; try contradiction; try discriminate E; cbn [scal_eqb] in E;
          [apply Z.eqb_eq in E|apply String.eqb_eq in E]; congruence.
      + intros [(q & E1 & E2)|(E & _)]; [|discriminate E]. injection E1 as ->. injection E2 as ->. destruct q; try contradiction; cbn [scal_eqb]; [apply Z.eqb_refl|apply String.eqb_refl].
    - rewrite (eqv_mixed x y s) by auto. split; [discriminate|]. intros [(q & _ & E)|(E & _)]; discriminate E.
    - rewrite (eqv_mixed x y s') by auto. split; [discriminate|]. intros [(q & E & _)|(_ & E & _)]; discriminate E.
    - split.
      + intros E. right. split; [reflexivity|]. split; [reflexivity|]. unfold eqv in E.
        destruct x; try contradiction; cbn [py_eqb] in E; rewrite X, Y in E; destruct y; try contradiction; try discriminate E; try reflexivity;
          apply andb_prop in E as [E1 E2]; apply String.eqb_eq in E1; [apply String.eqb_eq in E2..|apply Z.eqb_eq in E2]; congruence.
      + intros [(q & E & _)|(_ & _ & E)]; [discriminate E|]. subst y. unfold eqv.
        destruct x; try contradiction; cbn [py_eqb]; rewrite X; try reflexivity; rewrite String.eqb_refl; [apply String.eqb_refl..|apply Z.eqb_refl].
  Qed.
  Lemma atom_refl x : atom x -> eqv P x x = true.
  Proof. intros A. apply atom_eq; auto. destruct (scalar es x) as [s|]; [left; exists s; auto|right; auto]. Qed.
  Lemma atom_sym x y : atom x -> atom y -> eqv P x y = eqv P y x.
  Proof.
    intros A B. apply eq_true_iff_eq. rewrite !atom_eq by assumption. split; intros [(s & ? & ?)|(? & ? & ?)]; eauto.
  Qed.
  Lemma atom_trans x y z : atom x -> atom y -> atom z -> eqv P x y = true -> eqv P y z = eqv P x z.
  Proof.
    intros A B C E. apply atom_eq in E; auto. apply eq_true_iff_eq. rewrite !atom_eq by assumption.
    destruct E as [(s & X & Y)|(X & Y & ->)]; [|tauto]. rewrite X, Y. split; (intros [E|(E & _)]; [now left|discriminate E]).
  Qed.

  Lemma atom_set m k v x : Forall (fun kv => atom (fst kv)) m -> atom k -> atom x ->
    dget es (dset es m k v) x = if eqv P k x then Some v else dget es m x.
  Proof.
    intros F A B. induction F as [|[k' v'] m Hk F IH]; cbn [dset dget]; [reflexivity|]. cbn [fst] in Hk.
    change (py_eqb es k' k) with (eqv P k' k). destruct (eqv P k' k) eqn:E; cbn [dget]; change (py_eqb es k' x) with (eqv P k' x).
    - rewrite (atom_trans k' k x) by assumption. destruct (eqv P k' x); reflexivity.
    - rewrite IH. destruct (eqv P k' x) eqn:E'; [|reflexivity]. destruct (eqv P k x) eqn:E2; [|reflexivity]. exfalso.
      rewrite (atom_sym k x) in E2 by assumption. rewrite (atom_trans k' x k) in E2 by assumption. congruence.
  Qed.
  Lemma atom_keys m k v : Forall (fun kv => atom (fst kv)) m -> atom k -> Forall (fun kv => atom (fst kv)) (dset es m k v).
  Proof.
    intros F A. induction F as [|[k' v'] m Hk F IH]; cbn [dset]; [constructor; [exact A|constructor]|].
    destruct (py_eqb es k' k); constructor; auto.
  Qed.

  Lemma occurrences_app x a b : occurrences x (a ++ b) = occurrences x a + occurrences x b.
  Proof. induction a as [|y a IH]; cbn [app occurrences]; [reflexivity|]. rewrite IH. lia. Qed.
  Lemma occurrences_eq x y l : Forall atom l -> atom x -> atom y -> eqv P x y = true -> occurrences x l = occurrences y l.
  Proof.
    intros F A B E. induction F as [|z l Hz F IH]; cbn [occurrences]; [reflexivity|]. rewrite IH.
    rewrite (atom_sym z x), (atom_sym z y), (atom_sym y z), (atom_sym x z) by assumption.
    rewrite (atom_sym x y) in E by assumption. replace (eqv P z x) with (eqv P z y); [reflexivity|].
    rewrite (atom_sym z x), (atom_sym z y) by assumption. symmetry. apply atom_trans; assumption.
  Qed.
  Lemma counter_counts l : forall done acc m, Forall atom done -> Forall (fun kv => atom (fst kv)) acc -> Forall atom l ->
    (forall x, atom x -> dget es acc x = tally (occurrences x done)) ->
    foldM (fun acc x => if hashable P x then
               match dget es acc x with
               | Some (VInt n) => Ok (dset es acc x (VInt (n + 1)))
               | _ => Ok (dset es acc x (VInt 1))
               end
             else Raise XType) l acc = Ok m ->
    forall x, atom x -> dget es m x = tally (occurrences x (done ++ l)).
  Proof.
    induction l as [|y l IH]; intros done acc m FD FA FL I H x A; cbn [foldM] in H.
    - injection H as <-. rewrite app_nil_r. auto.
    - inversion FL as [|? ? Ay FL']; subst. destruct (hashable P y); [|discriminate H].
      assert (S : exists acc', acc' = dset es acc y (VInt (Z.of_nat (S (occurrences y done)))) /\
         foldM (fun acc x => if hashable P x then
               match dget es acc x with
               | Some (VInt n) => Ok (dset es acc x (VInt (n + 1)))
               | _ => Ok (dset es acc x (VInt 1))
               end
             else Raise XType) l acc' = Ok m).
      { rewrite (I y Ay) in H. destruct (occurrences y done) as [|n] eqn:O; unfold tally in H; cbn [Nat.eqb bind] in H; (eexists; split; [reflexivity|]); [exact H|].
        replace (Z.of_nat (S (S n))) with (Z.of_nat (S n) + 1)%Z by lia. exact H. }
      destruct S as (acc' & E & S). subst acc'. replace (done ++ y :: l) with ((done ++ [y]) ++ l) by (rewrite <- app_assoc; reflexivity).
      apply (IH _ _ _ ltac:(apply Forall_app; split; [exact FD|constructor; [exact Ay|constructor]]) (atom_keys _ _ _ FA Ay) FL') with (2 := S); [|exact A].
      intros z Az. rewrite (atom_set _ _ _ _ FA Ay Az), occurrences_app. cbn [occurrences]. rewrite (I z Az).
      destruct (eqv P y z) eqn:E; [|now rewrite !Nat.add_0_r].
      rewrite (occurrences_eq y z done FD Ay Az E). rewrite Nat.add_comm. reflexivity.
  Qed.

  Lemma made_counter x v : mk_counter P x = Ok v -> made BCounter x v.
  Proof.
    intros H. unfold mk_counter in H.
    assert (G : (forall k l, x <> VMap k l) -> (l <- iter P x ;;
      m <- foldM (fun acc x =>
             if hashable P x then
               match dget es acc x with
               | Some (VInt n) => Ok (dset es acc x (VInt (n + 1)))
               | _ => Ok (dset es acc x (VInt 1))
               end
             else Raise XType) l [] ;;
      Ok (VMap MCounter m)) = Ok v -> made BCounter x v).
    { intros NM G. inv_bind G. inv_bind G. injection G as <-. apply iter_elements in Hb. eapply md_counter; [exact Hb|exact NM|].
      intros F z Az. exact (counter_counts _ [] [] _ (Forall_nil _) (Forall_nil _) F (fun _ _ => eq_refl) Hb0 z Az). }
    destruct x; try (apply G; [intros; discriminate|exact H]); injection H as <-; constructor.
  Qed.

  (** * C61 *)

  (** A field annotated with a container type without arguments holds what [made] says of its datum, whatever the elements are. *)
  Theorem C61_bare n tg t d m kvs ro dn o f b k x :
    targets P t d -> dictlike d -> In f (c_fields d) -> read f = true -> f_flatten f = false -> plain_de P d f -> f_alias f = [] ->
    f_type f = TBare b -> wire_name W d f = Some k -> skey P kvs k = Some x ->
    from_dict P W K n (tg, t) (VMap m kvs) ro dn = Ok o ->
    exists attrs v, c_post d (VObj (c_id d) attrs) = Ok o /\ slookup (f_name f) attrs = Some v /\ made b x v.
  Proof.
    intros HT HD Hf R FL PD AL TY WN SK H.
    destruct (from_dict_object P W K _ _ _ _ _ _ _ _ HT HD (map_not_inst _ _ _ _ _ HT) H) as (n' & known & attrs & _ & _ & A & _ & B & _).
    destruct (B f Hf R) as (v & V1 & V2 & _). exists attrs, v. split; [exact A|]. split; [exact V1|].
    apply takes_plain in V2; [|exact FL]. unfold de_value in V2. inv_bind V2. rename a into e. rewrite plain_de_rest in Hb by exact PD.
    assert (NP : named_plainly W d f) by (now left).
    assert (FK : first_key P kvs (key_names W d f) = Some x) by (unfold key_names; rewrite WN, AL; cbn [first_key]; now rewrite SK).
    assert (G : exists e0, de_gcore P W (de_cfg d true) (fieldarg d f data_var) (f_type f) = Ok e0 /\
                de_default P W (fieldarg d f data_var) (f_type f) e0 = Ok e).
    { unfold de_rest in Hb. rewrite TY in *. inv_bind Hb; eauto. }
    destruct G as (e0 & G1 & G2). rewrite (default_leaf P W d f e0 e m kvs x _ _ NP FL FK G2) in V2.
    assert (DL : forall a call cx, da_data W (fieldarg d f data_var) (TBare b) = Ok a -> eval P W call cx [("data", VMap m kvs)] a = Ok x).
    { intros a call cx E. rewrite <- TY in E. eapply data_leaf; eauto. }
    rewrite TY in G1. unfold de_gcore in G1. cbn [is_opt is_none] in G1.
    destruct b as [k0|k0|k0| | |]; try (inv_bind G1; injection G1 as <-; cbn [eval] in V2; rewrite (DL _ _ _ Hb0) in V2; cbn [bind] in V2).
    - inv_bind V2. injection V2 as <-. constructor. now apply iter_elements.
    - inv_bind V2. unfold mk_seq in V2. cbn [is_setkind] in V2. destruct (forallb _ _); [|discriminate V2]. injection V2 as <-.
      apply iter_elements in Hb1. eapply md_set; [exact Hb1|]. apply (dedup_spec a0 [] []). split; [intros ? []|]. split; [intros ? []|].
      intros [|] ? ? ? ?; discriminate.
    - destruct k0; try discriminate G1; rewrite (DL _ _ _ G1) in V2; injection V2 as <-; constructor; discriminate.
    - inv_bind V2. injection V2 as <-. constructor. now apply iter_elements.
    - inv_bind V2. injection V2 as <-. constructor. now apply iter_elements.
    - now apply made_counter.
  Qed.
End Bare.

(** * Examples *)

Module BareEx.
  Definition A := cls "A" [fld "l" (TBare (BList LList)); fld "s" (TBare (BSet SkSet)); fld "c" (TBare BCounter); fld "t" (TBare BTuple)].
  Definition PA := prog [A] [].
  Definition word := VSeq KTuple [VStr "b"; VInt 1; VStr "a"; VBool true; VStr "b"].
  Definition data := [(VStr "l", VStr "hey"); (VStr "s", word); (VStr "c", word); (VStr "t", VMap MDict [(VStr "k", VInt 1)])].
  Definition out : list (string * pyval) :=
    [("l", vlist [VStr "h"; VStr "e"; VStr "y"]); ("s", VSeq KSet [VStr "b"; VInt 1; VStr "a"]);
     ("c", VMap MCounter [(VStr "b", VInt 2); (VInt 1, VInt 2); (VStr "a", VInt 1)]); ("t", VSeq KTuple [VStr "k"])].
  Example reads : from_dict PA W0 [] 9 (TagExternal, TClass "A") (VMap MDict data) None None = Ok (VObj "A" out).
  Proof. vm_compute. reflexivity. Qed.
  (** The counts follow from the theorem. *)
  Example C61_ex : exists m, slookup "c" out = Some (VMap MCounter m) /\ dget (enum_scalar PA) m (VStr "b") = Some (VInt 2) /\
    dget (enum_scalar PA) m (VInt 1) = Some (VInt 2) /\ dget (enum_scalar PA) m (VStr "z") = None.
  Proof.
    destruct (C61_bare PA W0 [] 9 TagExternal (TClass "A") A MDict data None None (VObj "A" out) (fld "c" (TBare BCounter)) BCounter "c" word) as (attrs & v & E & L & M).
    - exists "A". repeat split.
    - split; [reflexivity|]. repeat constructor; simpl; intuition discriminate.
    - simpl. auto.
    - reflexivity.
    - reflexivity.
    - repeat split. discriminate.
    - reflexivity.
    - reflexivity.
    - reflexivity.
    - reflexivity.
    - exact reads.
    - assert (attrs = out) by (injection E as ->; reflexivity). subst attrs. inversion M as [| | | | | |? l m EL _ C|]; subst. exists m. split; [exact L|].
      inversion EL; subst; [|discriminate H].
      assert (F : Forall (atom PA) [VStr "b"; VInt 1; VStr "a"; VBool true; VStr "b"]) by (repeat constructor).
      split; [|split]; (rewrite (C F); [reflexivity|exact I]).
  Qed.
End BareEx.

(** A frozenset without element type is read as a set, which the type check of the class does not accept: to_dict
    and from_dict are not inverse (C01) for such fields. *)
Theorem C61_frozenset_refuted :
  exists P, forall x, hashable P x = true ->
    let o := VObj "A" [("s", VSeq KFrozen [x])] in
    to_dict P W0 [] 9 o None None None false = Ok (dict [("s", VSeq KFrozen [x])]) /\
    exists e, from_dict P W0 [] 9 (TagExternal, TClass "A") (dict [("s", VSeq KFrozen [x])]) None None = Raise e.
Proof.
  exists (prog [cls "A" [fld "s" (TBare (BSet SkFrozen))]] []). intros x H o. split; [vm_compute; reflexivity|].
  set (P := prog [cls "A" [fld "s" (TBare (BSet SkFrozen))]] []) in *. eexists.
  unfold from_dict. cbn -[hashable]. rewrite H. cbn. reflexivity.
Qed.

Print Assumptions C61_bare.
Print Assumptions C61_frozenset_refuted.
