(** The traversal of the class graph by iter_types: it terminates and misses nothing.  Property C31. *)
From Coq Require Import String List ZArith Bool Ascii Lia.
From Verif Require Import Base PyVal PyType Program Compat SeRender Facts Spec Cover.
Import ListNotations.
Open Scope string_scope.
Open Scope list_scope.

(** * Names of the functions a field adds to the globals *)
Definition sufs : list string := ["skip_if"; "skip_if_false"; "skip_if_default"; "skip_if_none"; "serializer"].

Lemma list_ascii_app a b : list_ascii_of_string (a ++ b)%string = list_ascii_of_string a ++ list_ascii_of_string b.
Proof. induction a; simpl; [reflexivity|]. now rewrite IHa. Qed.
Lemma list_ascii_inj a b : list_ascii_of_string a = list_ascii_of_string b -> a = b.
Proof. intros H. rewrite <- (string_of_list_ascii_of_string a), H. apply string_of_list_ascii_of_string. Qed.

Lemma mangle_inj f g a b : In a sufs -> In b sufs -> mangle f a = mangle g b -> f = g /\ a = b.
Proof.
  intros Ha Hb H. unfold mangle in H. apply (f_equal list_ascii_of_string) in H. rewrite !list_ascii_app in H.
  assert (K : a = b).
  { apply (f_equal (fun l => firstn 3 (rev l))) in H. rewrite !rev_app_distr in H.
    unfold sufs in *. simpl in Ha, Hb.
    destruct Ha as [<-|[<-|[<-|[<-|[<-|[]]]]]]; destruct Hb as [<-|[<-|[<-|[<-|[<-|[]]]]]];
      try reflexivity; vm_compute in H; discriminate. }
  subst b. split; auto. apply app_inv_tail in H. now apply list_ascii_inj.
Qed.

Lemma slookup_functional {A} k (l : list (string * A)) a : In (k, a) l -> (forall b, In (k, b) l -> b = a) -> slookup k l = Some a.
Proof.
  intros H F. destruct (slookup k l) eqn:E; [apply slookup_In in E; now rewrite (F _ E)|].
  apply slookup_None in E. exfalso. apply E. now apply (in_map fst) in H.
Qed.

Lemma same_field d f g : NoDup (map f_name (c_fields d)) -> In f (c_fields d) -> In g (c_fields d) -> f_name f = f_name g -> f = g.
Proof.
  intros ND. induction (c_fields d) as [|h l IH]; [easy|]. cbn [map] in ND. inversion ND; subst.
  intros [->|Hf] [->|Hg] E; auto; exfalso.
  - apply H1. rewrite E. now apply in_map. - apply H1. rewrite <- E. now apply in_map.
Qed.

(** * The traversal of iter_types *)
Definition class_of (t : pytype) : list string := match t with TClass c => [c] | _ => [] end.
(** The classes among the types found by iter_types *)
Definition classes_of (l : list pytype) : list string := flat_map class_of l.

Lemma classes_of_In l c : In c (classes_of l) <-> In (TClass c) l.
Proof.
  unfold classes_of. rewrite in_flat_map. split.
  - intros [t [Ht H]]. destruct t; simpl in H; try contradiction. destruct H as [->|[]]. exact Ht.
  - intros H. exists (TClass c). split; [exact H|now left].
Qed.

Lemma NoDup_app_intro {A} (l r : list A) : NoDup l -> NoDup r -> (forall x, In x l -> ~ In x r) -> NoDup (l ++ r).
Proof.
  intros Hl Hr D. induction Hl as [|x l Hx Hl IH]; simpl; [exact Hr|].
  constructor.
  - rewrite in_app_iff. intros [H|H]; [contradiction|]. apply (D x); [now left|exact H].
  - apply IH. intros y Hy. apply D. now right.
Qed.

Section Walk.
  Variable P : program.
  Notation leaves acc := (Forall (fun x => isleaf x = true) acc).

  (** Classes of the program not yet visited *)
  Definition free (acc : list pytype) : nat :=
    List.length (filter (fun d => negb (ty_mem (TClass (c_id d)) acc)) (p_classes P)).

  Lemma ty_mem_class c acc : ty_mem (TClass c) acc = true <-> In (TClass c) acc.
  Proof.
    split; [apply ty_mem_needed; reflexivity|].
    intros H. unfold ty_mem. apply existsb_exists. exists (TClass c). split; [exact H|].
    simpl. apply String.eqb_refl.
  Qed.
  Lemma free_all acc : free acc <= List.length (p_classes P).
  Proof.
    unfold free. induction (p_classes P) as [|d l IH]; simpl; [lia|].
    destruct (negb _); simpl; lia.
  Qed.
  Lemma free_mono acc acc' : incl acc acc' -> free acc' <= free acc.
  Proof.
    intros I. unfold free. induction (p_classes P) as [|d l IH]; cbn [filter List.length]; [lia|].
    destruct (ty_mem (TClass (c_id d)) acc) eqn:E.
    - apply ty_mem_class in E. apply I in E. apply ty_mem_class in E. rewrite E. exact IH.
    - cbn [negb]. destruct (ty_mem (TClass (c_id d)) acc'); cbn [negb List.length]; lia.
  Qed.
  Lemma free_less acc c d : get_class P c = Some d -> ty_mem (TClass c) acc = false -> free (TClass c :: acc) < free acc.
  Proof.
    intros G E. unfold get_class in G. apply find_class_id in G as [I H]. unfold free.
    induction (p_classes P) as [|x l IH]; [contradiction|].
    assert (M : List.length (filter (fun d => negb (ty_mem (TClass (c_id d)) (TClass c :: acc))) l) <=
                List.length (filter (fun d => negb (ty_mem (TClass (c_id d)) acc)) l)).
    { clear. induction l as [|y l IH]; cbn [filter List.length]; [lia|].
      destruct (ty_mem (TClass (c_id y)) acc) eqn:E.
      - assert (ty_mem (TClass (c_id y)) (TClass c :: acc) = true) as ->
          by (apply ty_mem_class; right; now apply ty_mem_class). exact IH.
      - cbn [negb]. destruct (ty_mem (TClass (c_id y)) (TClass c :: acc)); cbn [negb List.length]; lia. }
    cbn [filter]. destruct H as [->|H].
    - rewrite I, E.
      assert (ty_mem (TClass c) (TClass c :: acc) = true) as -> by (apply ty_mem_class; now left).
      cbn [negb List.length]. lia.
    - specialize (IH H). destruct (ty_mem (TClass (c_id x)) acc) eqn:E2.
      + assert (ty_mem (TClass (c_id x)) (TClass c :: acc) = true) as ->
          by (apply ty_mem_class; right; now apply ty_mem_class). exact IH.
      + cbn [negb]. destruct (ty_mem (TClass (c_id x)) (TClass c :: acc)); cbn [negb List.length]; lia.
  Qed.

  (** The bound on the recursion is never met. *)
  Lemma it_ty_ext k rec rec' : keeps rec ->
    (forall c acc, leaves acc -> free acc <= k -> ty_mem (TClass c) acc = false -> rec c acc = rec' c acc) ->
    forall t acc, leaves acc -> free acc <= k -> it_ty rec t acc = it_ty rec' t acc.
  Proof.
    intros K E.
    assert (Hfold : forall l, Forall (fun t => forall acc, leaves acc -> free acc <= k -> it_ty rec t acc = it_ty rec' t acc) l ->
      forall acc, leaves acc -> free acc <= k ->
      fold_left (fun acc x => it_ty rec x acc) l acc = fold_left (fun acc x => it_ty rec' x acc) l acc).
    { induction 1; simpl; intros acc F L; [reflexivity|].
      rewrite <- (H acc F L). destruct (it_ty_keeps rec K x acc F) as [I1 F1].
      apply IHForall; [exact F1|]. pose proof (free_mono _ _ I1); lia. }
    induction t using pytype_ind'; intros acc F L; cbn [it_ty];
      (match goal with |- (if ?b then _ else _) = _ => destruct b eqn:EB; [reflexivity|] end); auto.
    - destruct (is_opt (TUnion l)) eqn:Eo; [|auto].
      destruct (opt_shape l Eo) as [a [-> _]]. inversion H; subst. auto.
    - rewrite <- (IHt1 acc F L). destruct (it_ty_keeps rec K t1 acc F) as [I1 F1].
      apply IHt2; [exact F1|]. pose proof (free_mono _ _ I1); lia.
  Qed.
  Lemma it_fields_ext k rec rec' d : keeps rec ->
    (forall c acc, leaves acc -> free acc <= k -> ty_mem (TClass c) acc = false -> rec c acc = rec' c acc) ->
    forall acc, leaves acc -> free acc <= k -> it_fields rec d acc = it_fields rec' d acc.
  Proof.
    intros K E. unfold it_fields. induction (c_fields d) as [|f l IH]; simpl; intros acc F L; [reflexivity|].
    destruct (f_skip f); [auto|].
    rewrite <- (it_ty_ext k rec rec' K E (f_type f) acc F L).
    destruct (it_ty_keeps rec K (f_type f) acc F) as [I1 F1].
    apply IH; [exact F1|]. pose proof (free_mono _ _ I1); lia.
  Qed.
  Lemma it_class_fuel k : forall n m c acc, leaves acc -> ty_mem (TClass c) acc = false ->
    free acc <= k -> k < n -> k < m -> it_class P n c acc = it_class P m c acc.
  Proof.
    induction k as [|k IH]; intros n m c acc F E L Ln Lm; destruct n as [|n], m as [|m]; try lia; simpl;
      (destruct (get_class P c) as [d|] eqn:G; [|reflexivity]);
      pose proof (free_less acc c d G E) as D; [lia|].
    apply (it_fields_ext k); [apply (it_class_keeps P n)| |constructor; [reflexivity|exact F]|lia].
    intros c' acc' F' L' E'. apply IH; auto; lia.
  Qed.

  (** Completeness: a class visited has all types of its fields visited. *)
  Definition closed (old new : list pytype) : Prop :=
    forall c d f u, In (TClass c) new -> ~ In (TClass c) old -> get_class P c = Some d ->
      In f (c_fields d) -> f_skip f = false -> needed u = true -> sub_ty u (f_type f) -> In u new.
  Lemma closed_refl acc : closed acc acc. Proof. intros c d f u H N; contradiction. Qed.
  Lemma closed_trans a b c : incl a b -> incl b c -> closed a b -> closed b c -> closed a c.
  Proof.
    intros I J H K x d f u Hx N G Hf S Hu Su.
    destruct (ty_mem (TClass x) b) eqn:E.
    - apply ty_mem_class in E. apply J. eapply (H x d f); eauto.
    - eapply (K x d f); eauto. intros Hb. apply ty_mem_class in Hb. congruence.
  Qed.

  Definition covers (k : nat) (rec : string -> list pytype -> list pytype) : Prop :=
    forall c acc, leaves acc -> free acc <= k -> ty_mem (TClass c) acc = false -> closed acc (rec c acc).

  Lemma it_ty_closed k rec : keeps rec -> covers k rec ->
    forall t acc, leaves acc -> free acc <= k -> closed acc (it_ty rec t acc).
  Proof.
    intros K C.
    assert (HL : forall t acc, (forall c, t <> TClass c) -> closed acc (t :: acc)).
    { intros t acc N c d f u [H|H] No; [now apply N in H|contradiction]. }
    assert (Hfold : forall l, Forall (fun t => forall acc, leaves acc -> free acc <= k -> closed acc (it_ty rec t acc)) l ->
      forall acc, leaves acc -> free acc <= k ->
      incl acc (fold_left (fun acc x => it_ty rec x acc) l acc) /\ closed acc (fold_left (fun acc x => it_ty rec x acc) l acc)).
    { induction 1; simpl; intros acc F L; [split; [apply incl_refl|apply closed_refl]|].
      destruct (it_ty_keeps rec K x acc F) as [I1 F1].
      destruct (IHForall _ F1) as [I2 C2]; [pose proof (free_mono _ _ I1); lia|].
      split; [eapply incl_tran; eauto|]. eapply closed_trans; eauto. }
    induction t using pytype_ind'; intros acc F L; cbn [it_ty];
      (match goal with |- closed _ (if ?b then _ else _) => destruct b eqn:EB; [apply closed_refl|] end);
      try (apply HL; intros; discriminate); auto.
    - destruct (is_opt (TUnion l)) eqn:Eo; [|now apply Hfold].
      destruct (opt_shape l Eo) as [a [-> _]]. inversion H; subst. auto.
    - destruct (it_ty_keeps rec K t1 acc F) as [I1 F1].
      destruct (it_ty_keeps rec K t2 _ F1) as [I2 F2].
      eapply closed_trans; [exact I1|exact I2|auto|]. apply IHt2; [exact F1|].
      pose proof (free_mono _ _ I1); lia.
    - now apply Hfold.
    - apply closed_refl.
  Qed.
  Lemma it_fields_closed k rec d : keeps rec -> covers k rec ->
    forall acc, leaves acc -> free acc <= k -> closed acc (it_fields rec d acc).
  Proof.
    intros K C. unfold it_fields. induction (c_fields d) as [|f l IH]; simpl; intros acc F L; [apply closed_refl|].
    destruct (f_skip f); [auto|].
    destruct (it_ty_keeps rec K (f_type f) acc F) as [I1 F1].
    assert (I2 : incl (it_ty rec (f_type f) acc)
        (fold_left (fun acc f => if f_skip f then acc else it_ty rec (f_type f) acc) l (it_ty rec (f_type f) acc))).
    { revert F1. generalize (it_ty rec (f_type f) acc). clear -K. induction l as [|g l IH]; simpl; intros acc F; [apply incl_refl|].
      destruct (f_skip g); [auto|]. destruct (it_ty_keeps rec K (f_type g) acc F) as [I1 F1].
      eapply incl_tran; eauto. }
    eapply closed_trans; [exact I1|exact I2|eapply it_ty_closed; eauto|].
    apply IH; [exact F1|]. pose proof (free_mono _ _ I1); lia.
  Qed.
  Lemma it_fields_covers n d f u : In f (c_fields d) -> f_skip f = false -> needed u = true -> sub_ty u (f_type f) ->
    forall acc, leaves acc -> In u (it_fields (it_class P (S n)) d acc).
  Proof.
    intros Hf Hs Hu Su. unfold it_fields.
    set (rec := it_class P (S n)).
    assert (Hk : keeps rec) by apply it_class_keeps.
    assert (Hkeep : forall l acc, leaves acc ->
       incl acc (fold_left (fun acc f => if f_skip f then acc else it_ty rec (f_type f) acc) l acc)).
    { clear -Hk. induction l; simpl; intros; [apply incl_refl|]. destruct (f_skip a); [auto|].
      destruct (it_ty_keeps rec Hk (f_type a) acc H) as [I1 F1]. eapply incl_tran; eauto. }
    induction (c_fields d) as [|g l IH]; simpl; intros acc F; [contradiction|].
    destruct Hf as [->|Hf].
    - rewrite Hs. apply Hkeep.
      + now apply it_ty_keeps. + now apply it_ty_covers.
    - destruct (f_skip g); [auto|]. apply IH; auto. now apply it_ty_keeps.
  Qed.
  Lemma it_class_closed k : forall n, k < n -> covers k (it_class P n).
  Proof.
    induction k as [|k IH]; intros n Ln c acc F L E; destruct n as [|n]; try lia; simpl;
      (destruct (get_class P c) as [d|] eqn:G;
        [pose proof (free_less acc c d G E) as D|
         intros x dx f u [Hx|Hx] Hn Gx; [injection Hx as <-; congruence|contradiction]]); [lia|].
    assert (F' : leaves (TClass c :: acc)) by (constructor; [reflexivity|exact F]).
    assert (I : incl (TClass c :: acc) (it_fields (it_class P n) d (TClass c :: acc)))
      by (apply it_fields_keeps; [apply it_class_keeps|exact F']).
    assert (C : closed (TClass c :: acc) (it_fields (it_class P n) d (TClass c :: acc))).
    { apply (it_fields_closed k); [apply it_class_keeps|apply IH; lia|exact F'|lia]. }
    intros x dx f u Hx Hn Gx Hf Hs Hu Su.
    destruct (string_dec x c) as [->|Ne].
    - rewrite G in Gx. injection Gx as <-.
      destruct n as [|n]; [lia|]. now apply it_fields_covers with f.
    - eapply (C x dx f u); eauto. intros [Heq|Hin]; [congruence|contradiction].
  Qed.

  (** No class is visited twice. *)
  Lemma nodup_class c acc : NoDup (classes_of acc) -> ty_mem (TClass c) acc = false -> NoDup (classes_of (TClass c :: acc)).
  Proof.
    intros N E. simpl. constructor; [|exact N]. rewrite classes_of_In. intros H. apply ty_mem_class in H. congruence.
  Qed.
  Lemma it_ty_nodup rec :
    (forall c acc, NoDup (classes_of acc) -> ty_mem (TClass c) acc = false -> NoDup (classes_of (rec c acc))) ->
    forall t acc, NoDup (classes_of acc) -> NoDup (classes_of (it_ty rec t acc)).
  Proof.
    intros R.
    assert (Hfold : forall l, Forall (fun t => forall acc, NoDup (classes_of acc) -> NoDup (classes_of (it_ty rec t acc))) l ->
      forall acc, NoDup (classes_of acc) -> NoDup (classes_of (fold_left (fun acc x => it_ty rec x acc) l acc))).
    { induction 1; simpl; intros acc N; auto. }
    induction t using pytype_ind'; intros acc N; cbn [it_ty];
      (match goal with |- NoDup (classes_of (if ?b then _ else _)) => destruct b eqn:EB; [exact N|] end); auto.
    destruct (is_opt (TUnion l)) eqn:Eo; [|auto].
    destruct (opt_shape l Eo) as [a [-> _]]. inversion H; subst. auto.
  Qed.
  Lemma it_fields_nodup rec d :
    (forall c acc, NoDup (classes_of acc) -> ty_mem (TClass c) acc = false -> NoDup (classes_of (rec c acc))) ->
    forall acc, NoDup (classes_of acc) -> NoDup (classes_of (it_fields rec d acc)).
  Proof.
    intros R. unfold it_fields. induction (c_fields d) as [|f l IH]; simpl; intros acc N; [exact N|].
    destruct (f_skip f); [auto|]. apply IH. now apply it_ty_nodup.
  Qed.
  Lemma it_class_nodup n : forall c acc, NoDup (classes_of acc) -> ty_mem (TClass c) acc = false ->
    NoDup (classes_of (it_class P n c acc)).
  Proof.
    induction n; intros c acc N E; simpl; [exact N|].
    pose proof (nodup_class c acc N E) as N'.
    destruct (get_class P c); [|exact N']. now apply it_fields_nodup.
  Qed.

  (** Every type the class refers to is collected. *)
  Lemma iter_types_complete d t : get_class P (c_id d) = Some d -> reach P d t -> needed t = true -> In t (iter_types P d).
  Proof.
    intros G.
    assert (F0 : leaves [TClass (c_id d)]) by (repeat constructor).
    assert (K : keeps (it_class P (class_fuel P))) by apply it_class_keeps.
    assert (L : free [TClass (c_id d)] < class_fuel P).
    { unfold class_fuel. pose proof (free_all [TClass (c_id d)]). lia. }
    assert (C : forall x dx f u, In (TClass x) (iter_types P d) -> get_class P x = Some dx ->
        In f (c_fields dx) -> f_skip f = false -> needed u = true -> sub_ty u (f_type f) ->
        In u (iter_types P d)).
    { intros x dx f u Hx Gx Hf Hs Hu Su.
      destruct (string_dec x (c_id d)) as [->|Ne].
      - rewrite G in Gx. injection Gx as <-. now apply (iter_types_field P d f u).
      - unfold iter_types in *. eapply (it_fields_closed (free [TClass (c_id d)]) (it_class P (class_fuel P)) d K); eauto.
        + now apply it_class_closed.
        + intros [H|[]]; congruence. }
    induction 1 as [|f t Hf Hs Ht|c' d' f t R IH Gc Hf Hs Ht]; intros Hn.
    - apply (it_fields_keeps (it_class P (class_fuel P)) d K _ F0). now left.
    - eapply (C (c_id d) d f); eauto.
      apply (it_fields_keeps (it_class P (class_fuel P)) d K _ F0). now left.
    - eapply (C c' d' f); eauto.
  Qed.

  (** C31, first part: iter_types visits every reachable class, no other one, none twice, and
      however many calls are allowed the result is the same. *)
  Theorem C31_iter_types d :
    get_class P (c_id d) = Some d ->
    (forall c, In c (classes_of (iter_types P d)) <-> reach P d (TClass c)) /\
    NoDup (classes_of (iter_types P d)) /\
    forall n, class_fuel P <= n -> it_fields (it_class P n) d [TClass (c_id d)] = iter_types P d.
  Proof.
    intros G.
    assert (F0 : leaves [TClass (c_id d)]) by (repeat constructor).
    assert (K : keeps (it_class P (class_fuel P))) by apply it_class_keeps.
    assert (L : free [TClass (c_id d)] < class_fuel P).
    { unfold class_fuel. pose proof (free_all [TClass (c_id d)]). lia. }
    split; [|split].
    - intros c. rewrite classes_of_In. split.
      + pose proof (iter_types_sound P d) as S. rewrite Forall_forall in S. apply S.
      + intros R. now apply iter_types_complete.
    - unfold iter_types. apply it_fields_nodup; [intros; now apply it_class_nodup|].
      simpl. constructor; [easy|constructor].
    - intros n Ln. unfold iter_types. apply (it_fields_ext (free [TClass (c_id d)])); auto.
      + apply it_class_keeps.
      + intros c acc Fa La Ea. eapply it_class_fuel; eauto; lia.
  Qed.
End Walk.

