(** What calls do not depend on: the unions used before in the process (C30). *)
From Coq Require Import String List ZArith Bool Ascii Lia.
From Verif Require Import Base PyVal PyType Program Compat Syntax SeRender DeRender Eval Facts Mono Spec Cover Cache Ex.
Import ListNotations.
Open Scope string_scope.
Open Scope list_scope.

(** [inside u t]: the type [u] occurs in the type [t], also as a type argument of a generic class. *)
Inductive inside : pytype -> pytype -> Prop :=
| in_here t : inside t t
| in_union u a l : In a l -> inside u a -> inside u (TUnion l)
| in_list u k a : inside u a -> inside u (TList k a)
| in_set u k a : inside u a -> inside u (TSet k a)
| in_deque u a : inside u a -> inside u (TDeque a)
| in_counter u a : inside u a -> inside u (TCounter a)
| in_key u k a b : inside u a -> inside u (TDict k a b)
| in_value u k a b : inside u b -> inside u (TDict k a b)
| in_tuple u a l : In a l -> inside u a -> inside u (TTuple l)
| in_gen u c a l : In a l -> inside u a -> inside u (TGen c l)
| in_alias u n a : inside u a -> inside u (TAlias n a).

(** Every union in [t] was, if at all, used before in the same spelling.  The class argument itself is used with the
    tagging [tg], unions inside it with the default tagging. *)
Definition spelled (K : list (tagging * pytype)) (tg : tagging) (t : pytype) : Prop :=
  (is_union (unalias t) = true -> fresh K tg (unalias t)) /\
  forall u, inside u t -> is_union u = true -> fresh K TagExternal u.

Lemma nth_opt_In {A} (l : list A) n a : nth_opt l n = Some a -> In a l.
Proof. revert n. induction l as [|x r IH]; intros [|n] E; try discriminate; [injection E as <-; now left|]. right. eauto. Qed.

Section Same.
  Variables (P : program) (W : world) (K : list (tagging * pytype)).

  Definition ok_type (t : pytype) : Prop := forall u, inside u t -> is_union u = true -> fresh K TagExternal u.

  (** Requests in which all unions are spelled as before *)
  Definition okq (q : callreq) : Prop :=
    match q with
    | QToObj _ _ _ _ _ (Some (tg, t)) => is_union (unalias t) = true -> fresh K tg (unalias t)
    | QFromObj (tg, t) _ _ _ _ => spelled K tg t
    | QDe _ _ _ _ _ (Some mg) _ _ => ok_type mg
    | _ => True
    end.

  Lemma ok_inside t a : ok_type t -> inside a t -> ok_type a.
  Proof.
    intros O I u Hu. apply O. clear O. revert u Hu. induction I; intros; eauto using inside.
  Qed.

  Lemma ok_spelled t : ok_type t -> spelled K TagExternal t.
  Proof.
    intros O. split; [|exact O]. intros U. apply O; [|exact U]. destruct t; try constructor; apply in_here.
  Qed.

  Section Step.
    Variables (call call' : callreq -> res pyval).
    Hypothesis Hcall : forall q, okq q -> call q = call' q.

    Definition okcx (cx : ctx) : Prop := match x_mg cx with Some t => ok_type t | None => True end.

    Lemma generic_arg_ok cx idx t : okcx cx -> get_generic_arg (x_mg cx) (x_mgtv cx) (x_vta cx) idx = Ok t -> ok_type t.
    Proof.
      intros O H. assert (A : ok_type TAny) by (intros u I; inversion I; subst; discriminate).
      unfold get_generic_arg, okcx in *. destruct (x_mg cx) as [[]|]; try (injection H as <-; exact A).
      destruct (x_mgtv cx); [|injection H as <-; exact A]. destruct (x_vta cx); [|injection H as <-; exact A].
      destruct (Nat.eqb _ _); [|discriminate]. inv_bind H. destruct (index_of _ _ _); [|injection H as <-; exact A].
      destruct (nth_opt args n) eqn:E; [|discriminate]. injection H as <-. eapply ok_inside; [exact O|].
      eapply in_gen; [|constructor]. eapply nth_opt_In; exact E.
    Qed.

    Lemma bind_ext {A B} (m m' : res A) (k k' : A -> res B) : m = m' -> (forall a, m' = Ok a -> k a = k' a) -> bind m k = bind m' k'.
    Proof. intros ->. destruct m'; simpl; auto. Qed.
    Lemma catch_ext {A} (m m' : res A) h : m = m' -> catch m h = catch m' h.
    Proof. now intros ->. Qed.
    Lemma mapMi_ext {A B} (f g : nat -> A -> res B) l : (forall i a, f i a = g i a) -> forall n, mapMi_from f n l = mapMi_from g n l.
    Proof. intros H. induction l; intros n; simpl; [reflexivity|]. rewrite H. now rewrite IHl. Qed.
    Lemma foldM_ext {A S} (f g : S -> A -> res S) l : (forall s a, f s a = g s a) -> forall s, foldM f l s = foldM g l s.
    Proof. intros H. induction l; intros s; simpl; [reflexivity|]. rewrite H. destruct (g s a); simpl; auto. Qed.

    Ltac same := repeat first
      [ reflexivity | assumption | solve [auto with same nocore]
      | match goal with H : forall rho, eval _ _ _ _ rho ?e = _ |- eval _ _ _ _ _ ?e = _ => apply H end
      | match goal with |- bind _ _ = bind _ _ => apply bind_ext; [|intros] end
      | match goal with |- catch _ _ = catch _ _ => apply catch_ext end
      | match goal with |- mapM _ _ = mapM _ _ => apply mapM_ext; intros end
      | match goal with |- mapMi_from _ _ _ = mapMi_from _ _ _ => apply mapMi_ext; intros end
      | match goal with |- foldM _ _ _ = foldM _ _ _ => apply foldM_ext; intros end
      | match goal with |- call _ = call' _ => apply Hcall; try exact I end
      | match goal with |- match ?x with _ => _ end = _ => destruct x eqn:? end ].

    Lemma eval_same cx e : okcx cx -> forall rho, eval P W call cx rho e = eval P W call' cx rho e.
    Proof.
      intros O. induction e using expr_ind'; intros rho; cbn [eval];
        try (match goal with H : Forall _ _ |- _ =>
             apply bind_ext; [apply mapM_ext; intros x Hx; exact (proj1 (Forall_forall _ _) H x Hx rho)|reflexivity] end);
        same.
      - discriminate.
      - apply ok_spelled. eapply generic_arg_ok; eauto.
    Qed.
    Hint Resolve eval_same : same.

    Lemma run_skip_same s v : run_skip P call s v = run_skip P call' s v.
    Proof. destruct s as [f| | |[d|]]; simpl; same. Qed.
    Hint Resolve run_skip_same : same.

    Lemma run_sstmt_same cx rho m s : okcx cx -> run_sstmt P W call cx rho m s = run_sstmt P W call' cx rho m s.
    Proof. intros O. unfold run_sstmt. same. Qed.
    Hint Resolve run_sstmt_same : same.

    Lemma run_se_body_same cx b o : okcx cx -> run_se_body P W call cx b o = run_se_body P W call' cx b o.
    Proof. intros O. destruct b; simpl; same. Qed.
    Hint Resolve run_se_body_same : same.

    Lemma run_dstmt_same cx data ex vals s : okcx cx -> run_dstmt P W call cx data ex vals s = run_dstmt P W call' cx data ex vals s.
    Proof.
      intros O. destruct s as [x|x proj e missing]; simpl; [same|]. apply bind_ext; [reflexivity|]. intros rho _.
      rewrite (eval_same cx e O rho). reflexivity.
    Qed.
    Hint Resolve run_dstmt_same : same.

    Lemma run_de_body_same cx b o : okcx cx -> run_de_body P W call cx b o = run_de_body P W call' cx b o.
    Proof. intros O. destruct b; simpl; same. Qed.
    Hint Resolve run_de_body_same : same.

    Lemma run_union_se_same cx arms o : okcx cx -> run_union_se P W call cx arms o = run_union_se P W call' cx arms o.
    Proof. intros O. induction arms as [|[t e] r IH]; simpl; same. Qed.
    Hint Resolve run_union_se_same : same.

    Lemma run_arm_same cx t e data : okcx cx -> run_arm P W call cx t e data = run_arm P W call' cx t e data.
    Proof. intros O. unfold run_arm; same. Qed.
    Hint Resolve run_arm_same : same.

    Lemma run_union_de_same cx arms o : okcx cx -> run_union_de P W call cx arms o = run_union_de P W call' cx arms o.
    Proof. intros O. induction arms as [|[t e] r IH]; simpl; [same|]. rewrite (run_arm_same cx t e o O), IH. reflexivity. Qed.
    Hint Resolve run_union_de_same : same.

    Lemma ok_unalias t : ok_type t -> ok_type (unalias t).
    Proof. intros O. destruct t; try exact O. eapply ok_inside; [exact O|]. apply in_alias. constructor. Qed.

    Lemma from_body_same t o named reuse dn : ok_type t ->
      from_obj_body P W call match t with TGen k _ => TClass k | _ => t end t o named reuse dn =
      from_obj_body P W call' match t with TGen k _ => TClass k | _ => t end t o named reuse dn.
    Proof.
      intros O.
      assert (TH : forall a, inside a t -> forall e, okq (QFromObj (TagExternal, a) e named reuse dn)).
      { intros a Ha e. cbn [okq]. apply ok_spelled. eapply ok_inside; eauto. }
      unfold from_obj_body. cbv zeta. destruct (first_de P _); [reflexivity|].
      destruct t; same; try (apply TH; eauto using inside, in_eq); try exact O.
      eapply in_tuple; [|constructor]. match goal with H : of_option _ (nth_opt ?l ?i) = Ok ?a |- _ => destruct (nth_opt l i) eqn:E; [|discriminate H]; injection H as <- end.
      eapply nth_opt_In; exact E.
    Qed.

    Lemma step_same q : okq q -> step P W K call q = step P W [] call' q.
    Proof.
      intros O. destruct q; cbn [step].
      - same.
      - same.
      - same.
      - same.
      - apply catch_ext. unfold to_obj_body; cbv zeta. destruct c as [[tg t]|]; cbn [option_map fst snd]; [|solve [same]].
        destruct (unalias t) as [| | | | |args| | | | | | | | | | | | | | | | | |] eqn:U; try solve [same].
        destruct (is_opt (TUnion args)); [solve [same]|]. cbn [okq] in O. rewrite U in O.
        rewrite union_wrapper_fresh by (apply O; reflexivity). rewrite union_wrapper_fresh by apply fresh_nil. same.
      - destruct c as [tg t0]. destruct O as [O1 O2]. destruct (type_is o (unalias t0)); [reflexivity|].
        destruct (is_union (unalias t0)) eqn:U; cbn [andb].
        + destruct (is_opt (unalias t0)); cbn [negb].
          * apply catch_ext. apply from_body_same. apply ok_unalias. exact O2.
          * rewrite union_wrapper_fresh by (apply O1; reflexivity). rewrite union_wrapper_fresh by apply fresh_nil. same.
        + apply catch_ext. apply from_body_same. apply ok_unalias. exact O2.
    Qed.
  End Step.

  Lemma run_same n q : okq q -> run P W K n q = run P W [] n q.
  Proof. revert q. induction n; intros q O; [reflexivity|]. cbn [run]. apply step_same; assumption. Qed.

  (** Serialization does not depend on what was done before, if the union that is passed was not used before in
      another spelling ... *)
  Theorem C30_to_partial n o cc ro rc skip :
    match cc with Some (tg, t) => is_union (unalias t) = true -> fresh K tg (unalias t) | None => True end ->
    to_dict P W K n o cc ro rc skip = to_dict P W [] n o cc ro rc skip /\
    to_tuple P W K n o cc ro rc skip = to_tuple P W [] n o cc ro rc skip.
  Proof. intros O. split; apply run_same; exact O. Qed.

  (** ... and neither does deserialization, where unions inside the class argument count too. *)
  Theorem C30_from_partial n tg t o ro dn :
    spelled K tg t ->
    from_dict P W K n (tg, t) o ro dn = from_dict P W [] n (tg, t) o ro dn /\
    from_tuple P W K n (tg, t) o ro dn = from_tuple P W [] n (tg, t) o ro dn.
  Proof. intros O. split; apply run_same; exact O. Qed.
End Same.

Module IndepEx.
  (** Union[A, B] and List[Union[A, B]] were used before, and now a list of the latter is read. *)
  Definition P := prog [cls "A" [fld "x" TInt]; cls "B" [fld "x" TString]] [].
  Definition u : pytype := TUnion [TClass "A"; TClass "B"].
  Definition K : list (tagging * pytype) := [(TagExternal, u); (TagInternal "t", TUnion [TClass "B"; TClass "A"])].
  Definition data := vlist [dict [("B", dict [("x", VStr "s")])]; dict [("A", dict [("x", VInt 1)])]].

  Lemma fresh_u : fresh K TagExternal u.
  Proof. intros k [<-|[<-|[]]]; [reflexivity|discriminate]. Qed.
  Lemma spelled_list : spelled K TagExternal (TList LList u).
  Proof.
    split; [discriminate|]. intros t I U. inversion I as [ | | ? ? ? I1| | | | | | | | ]; subst; [discriminate|].
    inversion I1 as [ |? a ? Ha I2| | | | | | | | | ]; subst; [exact fresh_u|].
    destruct Ha as [<-|[<-|[]]]; inversion I2; subst; discriminate.
  Qed.

  Example C30_from_ex : from_dict P W0 K 9 (TagExternal, TList LList u) data None None = Ok (vlist [VObj "B" [("x", VStr "s")]; VObj "A" [("x", VInt 1)]]).
  Proof. rewrite (proj1 (C30_from_partial P W0 K 9 TagExternal _ data None None spelled_list)). vm_compute. reflexivity. Qed.
  Example C30_to_ex : to_dict P W0 K 9 (VObj "A" [("x", VInt 1)]) (Some (TagExternal, u)) None None false = Ok (dict [("A", dict [("x", VInt 1)])]).
  Proof. rewrite (proj1 (C30_to_partial P W0 K 9 _ (Some (TagExternal, u)) None None false (fun _ => fresh_u))). vm_compute. reflexivity. Qed.
End IndepEx.

Print Assumptions C30_to_partial.
Print Assumptions C30_from_partial.
