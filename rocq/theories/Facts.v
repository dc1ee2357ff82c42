(** General lemmas: result monad, lists, association lists with string keys. *)
From Coq Require Import String List ZArith Bool Ascii Lia.
From Verif Require Import Base PyVal PyType Program.
Import ListNotations.
Open Scope string_scope.
Open Scope list_scope.

(** * Results *)
Lemma bind_Ok {A B} (m : res A) (k : A -> res B) b :
  bind m k = Ok b -> exists a, m = Ok a /\ k a = Ok b.
Proof. destruct m; simpl; intros; try discriminate; eauto. Qed.

Lemma bind_Raise {A B} (m : res A) (k : A -> res B) e :
  bind m k = Raise e -> m = Raise e \/ exists a, m = Ok a /\ k a = Raise e.
Proof. destruct m; simpl; intros; try discriminate; eauto. left; congruence. Qed.

Lemma of_option_Ok {A} e (o : option A) a : of_option e o = Ok a -> o = Some a.
Proof. destruct o; simpl; congruence. Qed.

Ltac inv_bind H :=
  let a := fresh "a" in let H1 := fresh "Hb" in
  apply bind_Ok in H; destruct H as [a [H1 H]].

Lemma mapM_Ok {A B} (f : A -> res B) l l' :
  mapM f l = Ok l' <-> Forall2 (fun a b => f a = Ok b) l l'.
Proof.
  revert l'; induction l as [|a l IH]; simpl; intros l'.
  - split; intros H. + injection H as <-. constructor. + inversion H; reflexivity.
  - split; intros H.
    + inv_bind H. inv_bind H. injection H as <-. constructor; [assumption|]. now apply IH.
    + inversion H as [|x y xs ys Hx Hxs]; subst. rewrite Hx; simpl.
      apply IH in Hxs. now rewrite Hxs.
Qed.

Lemma mapM_map {A B C} (f : B -> res C) (g : A -> B) l : mapM f (map g l) = mapM (fun x => f (g x)) l.
Proof. induction l; simpl; [reflexivity|]. now rewrite IHl. Qed.

Lemma mapM_ext {A B} (f g : A -> res B) l :
  (forall x, In x l -> f x = g x) -> mapM f l = mapM g l.
Proof.
  induction l; simpl; intros H; [reflexivity|].
  rewrite (H a) by now left. rewrite IHl; [reflexivity|]. intros; apply H; now right.
Qed.

Lemma mapM_all_Ok {A B} (f : A -> res B) (g : A -> B) l :
  (forall x, In x l -> f x = Ok (g x)) -> mapM f l = Ok (map g l).
Proof.
  intros H. apply mapM_Ok. induction l; simpl; constructor.
  - apply H; now left. - apply IHl. intros; apply H; now right.
Qed.

Lemma mapM_length {A B} (f : A -> res B) l l' : mapM f l = Ok l' -> List.length l' = List.length l.
Proof. rewrite mapM_Ok. induction 1; simpl; congruence. Qed.

Lemma mapM_app {A B} (f : A -> res B) l1 l2 :
  mapM f (l1 ++ l2) = (x <- mapM f l1 ;; y <- mapM f l2 ;; Ok (x ++ y)).
Proof.
  induction l1; simpl.
  - destruct (mapM f l2); reflexivity.
  - destruct (f a); simpl; try reflexivity. rewrite IHl1.
    destruct (mapM f l1); simpl; try reflexivity. destruct (mapM f l2); reflexivity.
Qed.

Lemma foldM_app {A S} (f : S -> A -> res S) l1 l2 s :
  foldM f (l1 ++ l2) s = (s' <- foldM f l1 s ;; foldM f l2 s').
Proof. revert s; induction l1; simpl; intros; [reflexivity|]. destruct (f s a); simpl; auto. Qed.

(** * Eventually (for all sufficiently large fuel) *)
Definition ev (Q : nat -> Prop) : Prop := exists N, forall n, N <= n -> Q n.

Lemma ev_always (Q : nat -> Prop) : (forall n, Q n) -> ev Q.
Proof. intros H; exists 0; auto. Qed.
Lemma ev_mono (Q R : nat -> Prop) : ev Q -> (forall n, Q n -> R n) -> ev R.
Proof. intros [N H] HR; exists N; auto. Qed.
Lemma ev_and (Q R : nat -> Prop) : ev Q -> ev R -> ev (fun n => Q n /\ R n).
Proof. intros [N H] [M H']. exists (Nat.max N M). intros n Hn. split; [apply H|apply H']; lia. Qed.
Lemma ev_S (Q : nat -> Prop) : ev Q -> ev (fun n => match n with O => False | S n => Q n end).
Proof. intros [N H]. exists (S N). intros [|n] Hn; [lia|]. apply H; lia. Qed.
Lemma ev_Forall {A} (Q : A -> nat -> Prop) l :
  Forall (fun a => ev (Q a)) l -> ev (fun n => Forall (fun a => Q a n) l).
Proof.
  induction 1.
  - apply ev_always; constructor.
  - destruct (ev_and _ _ H IHForall) as [N HN]. exists N. intros n Hn. destruct (HN n Hn); constructor; auto.
Qed.
Lemma ev_Forall2 {A B} (Q : A -> B -> nat -> Prop) l l' :
  Forall2 (fun a b => ev (Q a b)) l l' -> ev (fun n => Forall2 (fun a b => Q a b n) l l').
Proof.
  induction 1.
  - apply ev_always; constructor.
  - destruct (ev_and _ _ H IHForall2) as [N HN]. exists N. intros n Hn. destruct (HN n Hn); constructor; auto.
Qed.

(** * Lists *)
Lemma Forall2_map_l {A B C} (R : B -> C -> Prop) (f : A -> B) l l' :
  Forall2 R (map f l) l' <-> Forall2 (fun a c => R (f a) c) l l'.
Proof.
  revert l'; induction l; simpl; intros; split; intros H; inversion H; subst; constructor; auto; now apply IHl.
Qed.
Lemma Forall2_map_r {A B C} (R : A -> C -> Prop) (f : B -> C) l l' :
  Forall2 R l (map f l') <-> Forall2 (fun a b => R a (f b)) l l'.
Proof.
  revert l'; induction l; simpl; intros; split; intros H.
  - destruct l'; [constructor|inversion H].
  - inversion H; subst. constructor.
  - destruct l'; inversion H; subst. constructor; auto. now apply IHl.
  - inversion H; subst; simpl. constructor; auto. now apply IHl.
Qed.
Lemma Forall2_impl {A B} (R R' : A -> B -> Prop) l l' :
  (forall a b, In a l -> In b l' -> R a b -> R' a b) -> Forall2 R l l' -> Forall2 R' l l'.
Proof.
  intros H F; induction F; constructor.
  - apply H; try now left. assumption.
  - apply IHF. intros; apply H; try now right; auto. assumption.
Qed.
Lemma Forall2_flip {A B} (R : A -> B -> Prop) l l' : Forall2 R l l' -> Forall2 (fun b a => R a b) l' l.
Proof. induction 1; constructor; auto. Qed.
Lemma Forall2_same {A} (R : A -> A -> Prop) l : Forall (fun x => R x x) l -> Forall2 R l l.
Proof. induction 1; constructor; auto. Qed.
Lemma Forall2_Forall_l {A B} (R : A -> B -> Prop) (Q : A -> Prop) l l' :
  (forall a b, R a b -> Q a) -> Forall2 R l l' -> Forall Q l.
Proof. intros H; induction 1; constructor; eauto. Qed.
Lemma Forall2_nth {A B} (R : A -> B -> Prop) l l' n a :
  Forall2 R l l' -> nth_opt l n = Some a -> exists b, nth_opt l' n = Some b /\ R a b.
Proof.
  intros F; revert n; induction F; intros [|n] Hn; simpl in *; try discriminate.
  - injection Hn as <-; eauto. - eauto.
Qed.

Lemma Forall2_in_r {A B} (R : A -> B -> Prop) l l' b : Forall2 R l l' -> In b l' -> exists a, In a l /\ R a b.
Proof.
  induction 1; simpl; [contradiction|]. intros [->|Hb]; [eauto|].
  destruct (IHForall2 Hb) as [a [Ha HR]]; eauto.
Qed.
Lemma Forall2_in_l {A B} (R : A -> B -> Prop) l l' a : Forall2 R l l' -> In a l -> exists b, In b l' /\ R a b.
Proof.
  induction 1; simpl; [contradiction|]. intros [->|Hb]; [eauto|].
  destruct (IHForall2 Hb) as [b [Ha HR]]; eauto.
Qed.

Lemma nth_opt_In {A} (l : list A) n a : nth_opt l n = Some a -> In a l.
Proof.
  revert n; induction l; intros [|n]; simpl; intros; try discriminate.
  - left; congruence. - right; eauto.
Qed.
Lemma nth_opt_app {A} (l1 l2 : list A) a : nth_opt (l1 ++ a :: l2) (List.length l1) = Some a.
Proof. induction l1; simpl; auto. Qed.

Lemma find_some_iff {A} (p : A -> bool) l a : find p l = Some a -> In a l /\ p a = true.
Proof. intros; now apply find_some. Qed.

(** * Membership in string lists, string keyed lists *)
Lemma smem_In k l : smem k l = true <-> In k l.
Proof.
  unfold smem. rewrite existsb_exists. split.
  - intros [x [H E]]. apply String.eqb_eq in E; now subst.
  - intros H; exists k; split; [assumption|apply String.eqb_refl].
Qed.

Lemma slookup_In {A} k (l : list (string * A)) a : slookup k l = Some a -> In (k, a) l.
Proof.
  induction l as [|[k' b] l IH]; simpl; [discriminate|].
  destruct (String.eqb_spec k' k); intros H.
  - left; congruence. - right; auto.
Qed.
Lemma slookup_NoDup {A} k (l : list (string * A)) a :
  NoDup (map fst l) -> In (k, a) l -> slookup k l = Some a.
Proof.
  induction l as [|[k' b] l IH]; simpl; [easy|].
  intros ND [H|H].
  - injection H as -> ->. now rewrite String.eqb_refl.
  - inversion ND; subst. destruct (String.eqb_spec k' k) as [->|N].
    + exfalso. apply H2. now apply (in_map fst) in H.
    + auto.
Qed.
Lemma slookup_None {A} k (l : list (string * A)) : slookup k l = None <-> ~ In k (map fst l).
Proof.
  induction l as [|[k' b] l IH]; simpl; [tauto|].
  destruct (String.eqb_spec k' k).
  - split; [discriminate|intros H; exfalso; apply H; now left].
  - rewrite IH. tauto.
Qed.
Lemma slookup_app {A} k (l1 l2 : list (string * A)) :
  slookup k (l1 ++ l2) = match slookup k l1 with Some a => Some a | None => slookup k l2 end.
Proof.
  induction l1 as [|[k' b] l IH]; simpl; [reflexivity|].
  now destruct (String.eqb k' k).
Qed.

Lemma NoDup_rev {A} (l : list A) : NoDup l -> NoDup (rev l).
Proof. intros; now apply NoDup_rev. Qed.

(** * Dicts with string keys *)
Section Dict.
  Variable es : string -> string -> option scal.

  Lemma py_eqb_str a b : py_eqb es (VStr a) (VStr b) = String.eqb a b.
  Proof. reflexivity. Qed.

  Lemma py_eqb_str_sym s v : py_eqb es (VStr s) v = py_eqb es v (VStr s).
  Proof.
    unfold py_eqb at 1. simpl (scalar es (VStr s)).
    assert (H : py_eqb es v (VStr s) =
      match scalar es v with Some x => scal_eqb x (SS s) | None => false end).
    { destruct v; simpl; try reflexivity; destruct (scalar es _) eqn:E; try reflexivity;
        try (now rewrite ?E); now destruct (es c m). }
    rewrite H. destruct (scalar es v) as [[?|?|t]|]; simpl; try reflexivity. apply String.eqb_sym.
  Qed.

  Lemma dget_app l1 l2 k :
    dget es (l1 ++ l2) k = match dget es l1 k with Some v => Some v | None => dget es l2 k end.
  Proof. induction l1 as [|[k' v] l IH]; simpl; [reflexivity|]. now destruct (py_eqb es k' k). Qed.

  Lemma dset_fresh l k v : dget es l k = None -> dset es l k v = l ++ [(k, v)].
  Proof.
    induction l as [|[k' v'] l IH]; simpl; [reflexivity|].
    destruct (py_eqb es k' k); [discriminate|]. intros H; now rewrite IH.
  Qed.

  (** Lookup of a string key in a list whose keys are given strings. *)
  Lemma dget_skeys (l : list (string * pyval)) k :
    dget es (map (fun kv => (VStr (fst kv), snd kv)) l) (VStr k) = slookup k l.
  Proof.
    induction l as [|[k' v] l IH]; [reflexivity|].
    cbn [map fst snd dget slookup]. rewrite py_eqb_str. now rewrite IH.
  Qed.

  Lemma dget_dset_str l k k' v :
    dget es (dset es l (VStr k) v) (VStr k') = if String.eqb k k' then Some v else dget es l (VStr k').
  Proof.
    induction l as [|[a b] l IH]; cbn [dset dget].
    - rewrite py_eqb_str. reflexivity.
    - destruct (py_eqb es a (VStr k)) eqn:E; cbn [dget].
      + destruct (String.eqb_spec k k') as [->|N].
        * now rewrite E.
        * destruct (py_eqb es a (VStr k')) eqn:E'; [|reflexivity].
          exfalso. apply N.
          rewrite <- !py_eqb_str_sym in *. unfold py_eqb in E, E'. simpl in E, E'.
          destruct (scalar es a) as [[?|?|t]|]; simpl in *; try discriminate.
          apply String.eqb_eq in E, E'. congruence.
      + rewrite IH. destruct (String.eqb_spec k k') as [->|N]; [now rewrite E|reflexivity].
  Qed.
End Dict.
