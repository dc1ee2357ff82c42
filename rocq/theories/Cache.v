(** The wrapper classes of unions passed to the public functions (core.py:93-181). *)
From Coq Require Import String List ZArith Bool Ascii Lia.
From Verif Require Import Base PyVal PyType Program Compat Syntax SeRender DeRender Eval Facts Spec Cover.
Import ListNotations.
Open Scope string_scope.
Open Scope list_scope.

(** No union that Python takes for equal to [t] but that is written differently was used before with
    this tagging: Union[A, B] == Union[B, A], so such a union would find the wrapper of the other. *)
Definition fresh (K : list (tagging * pytype)) (tg : tagging) (t : pytype) : Prop :=
  forall k, In k K -> tagging_eqb (fst k) tg && ty_eqb (snd k) t = true -> snd k = t.

Lemma fresh_nil tg t : fresh [] tg t. Proof. intros k []. Qed.

Section Cache.
  Variables (P : program) (K : list (tagging * pytype)).

  Lemma union_wrapper_fresh tg t : fresh K tg t ->
    union_wrapper P K tg t = wrapper P (union_func_name P "Union" (union_args t)) t tg.
  Proof.
    intros F. unfold union_wrapper. destruct (find _ K) as [k|] eqn:E; [|reflexivity].
    apply find_some in E as [I E]. now rewrite (F _ I E).
  Qed.

  Lemma wrapper_union n l tg : In (TUnion l) (iter_unions P (wrapper P n (TUnion l) tg)).
  Proof. eapply iter_unions_field; [now left|reflexivity|constructor]. Qed.

  Lemma find_union_some d pre l : In (TUnion l) (iter_unions P d) ->
    exists l', find_union P d pre (union_func_name P pre l) = Some l' /\ In (TUnion l') (iter_unions P d).
  Proof.
    intros I. unfold find_union. destruct (find _ (rev (iter_unions P d))) as [u|] eqn:E.
    - apply find_some in E as [Hu _]. rewrite <- in_rev in Hu.
      destruct (proj1 (Forall_forall _ _) (iter_unions_shape P d) _ Hu) as [l' ->]. now exists l'.
    - exfalso. apply in_rev in I. apply (find_none _ _ E) in I. cbn [union_args] in I. now rewrite String.eqb_refl in I.
  Qed.
End Cache.
