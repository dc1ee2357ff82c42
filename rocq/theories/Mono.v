(** Fuel: a call that returns or raises keeps its outcome when more nested calls are allowed. *)
From Coq Require Import String List ZArith Bool Ascii Lia.
From Verif Require Import Base PyVal PyType Program Compat Syntax SeRender DeRender Eval Facts.
Import ListNotations.
Open Scope string_scope.
Open Scope list_scope.

(** [r] is not yet decided or agrees with [r']. *)
Definition rle {A} (r r' : res A) : Prop := r = NoFuel \/ r = r'.

Lemma rle_refl {A} (r : res A) : rle r r.
Proof. now right. Qed.
Lemma rle_NoFuel {A} (r : res A) : rle NoFuel r.
Proof. now left. Qed.
Lemma rle_bind {A B} (m m' : res A) (k k' : A -> res B) :
  rle m m' -> (forall a, rle (k a) (k' a)) -> rle (bind m k) (bind m' k').
Proof.
  intros [-> | ->] H; [now left|]. destruct m'; simpl; try apply rle_refl. apply H.
Qed.
Lemma rle_catch {A} (m m' : res A) (h h' : exn -> res A) :
  rle m m' -> (forall e, rle (h e) (h' e)) -> rle (catch m h) (catch m' h').
Proof. intros [-> | ->] H; [now left|]. destruct m'; simpl; try apply rle_refl. apply H. Qed.
Lemma rle_mapM {A B} (f g : A -> res B) l :
  Forall (fun a => rle (f a) (g a)) l -> rle (mapM f l) (mapM g l).
Proof.
  induction 1; simpl; [apply rle_refl|].
  apply rle_bind; [assumption|]. intros. apply rle_bind; [assumption|]. intros; apply rle_refl.
Qed.
Lemma rle_mapM_all {A B} (f g : A -> res B) l : (forall a, rle (f a) (g a)) -> rle (mapM f l) (mapM g l).
Proof. intros; apply rle_mapM, Forall_forall; auto. Qed.
Lemma rle_mapMi {A B} (f g : nat -> A -> res B) l n :
  (forall i a, rle (f i a) (g i a)) -> rle (mapMi_from f n l) (mapMi_from g n l).
Proof.
  intros H. revert n; induction l; intros; simpl; [apply rle_refl|].
  apply rle_bind; [apply H|]. intros. apply rle_bind; [apply IHl|]. intros; apply rle_refl.
Qed.
Lemma rle_foldM {A S} (f g : S -> A -> res S) l s :
  (forall s a, rle (f s a) (g s a)) -> rle (foldM f l s) (foldM g l s).
Proof.
  intros H. revert s; induction l; intros; simpl; [apply rle_refl|].
  apply rle_bind; [apply H|]. intros; apply IHl.
Qed.

Section ExprInd.
  Variable Q : expr -> Prop.
  Hypothesis HVar : forall x, Q (EVar x).
  Hypothesis HNone : Q ENone.
  Hypothesis HAttr : forall e a, Q e -> Q (EAttr e a).
  Hypothesis HKey : forall e a, Q e -> Q (EKey e a).
  Hypothesis HIdx : forall e a, Q e -> Q (EIdx e a).
  Hypothesis HSlice : forall e a, Q e -> Q (ESlice e a).
  Hypothesis HGet : forall e a, Q e -> Q (EGet e a).
  Hypothesis HAliases : forall ks r, Q (EAliases ks r).
  Hypothesis HIf : forall a b c, Q a -> Q b -> Q c -> Q (EIf a b c).
  Hypothesis HNotNone : forall e, Q e -> Q (ENotNone e).
  Hypothesis HIn : forall k e, Q e -> Q (EIn k e).
  Hypothesis HInAliases : forall e ks, Q e -> Q (EInAliases e ks).
  Hypothesis HAnd : forall a b, Q a -> Q b -> Q (EAnd a b).
  Hypothesis HIsInst : forall e t, Q e -> Q (EIsInst e t).
  Hypothesis HReuse : Q EReuse.
  Hypothesis HConv : Q EConv.
  Hypothesis HHasNum : Q EHasNum.
  Hypothesis HComp : forall k e it, Q e -> Q it -> Q (EComp k e it).
  Hypothesis HMapComp : forall ek ev it, Q ek -> Q ev -> Q it -> Q (EMapComp ek ev it).
  Hypothesis HTuple : forall l, Forall Q l -> Q (ETuple l).
  Hypothesis HBuiltin : forall b e, Q e -> Q (EBuiltin b e).
  Hypothesis HDefDict : forall f e, Q e -> Q (EDefDict f e).
  Hypothesis HCoerce : forall c f t e, Q e -> Q (ECoerce c f t e).
  Hypothesis HEnumVal : forall t e, Q e -> Q (EEnumVal t e).
  Hypothesis HDeEnum : forall t e, Q e -> Q (EDeEnum t e).
  Hypothesis HStr : forall e, Q e -> Q (EStr e).
  Hypothesis HIso : forall e, Q e -> Q (EIso e).
  Hypothesis HFromIso : forall t e, Q e -> Q (EFromIso t e).
  Hypothesis HCtor : forall t e, Q e -> Q (ECtor t e).
  Hypothesis HFn : forall f e, Q e -> Q (EFn f e).
  Hypothesis HClsSer : forall n e, Q e -> Q (EClsSer n e).
  Hypothesis HClsDe : forall n t e, Q e -> Q (EClsDe n t e).
  Hypothesis HLegacySe : forall t e d, Q e -> Q d -> Q (ELegacySe t e d).
  Hypothesis HLegacyDe : forall t e d, Q e -> Q d -> Q (ELegacyDe t e d).
  Hypothesis HToObj : forall e, Q e -> Q (EToObj e).
  Hypothesis HFromGen : forall i e n, Q e -> Q (EFromGen i e n).
  Hypothesis HSeFn : forall e n, Q e -> Q (ESeFn e n).
  Hypothesis HDeFn : forall t e n a, Q e -> Q (EDeFn t e n a).
  Hypothesis HUnionSe : forall f e, Q e -> Q (EUnionSe f e).
  Hypothesis HUnionDe : forall f e, Q e -> Q (EUnionDe f e).
  Hypothesis HLitDe : forall f e, Q e -> Q (ELitDe f e).
  Hypothesis HNum : forall e, Q e -> Q (ENum e).
  Hypothesis HDefault : forall f, Q (EDefault f).
  Fixpoint expr_ind' (e : expr) : Q e :=
    match e with
    | EVar x => HVar x | ENone => HNone
    | EAttr e a => HAttr e a (expr_ind' e) | EKey e a => HKey e a (expr_ind' e)
    | EIdx e a => HIdx e a (expr_ind' e) | ESlice e a => HSlice e a (expr_ind' e)
    | EGet e a => HGet e a (expr_ind' e) | EAliases ks r => HAliases ks r
    | EIf a b c => HIf a b c (expr_ind' a) (expr_ind' b) (expr_ind' c)
    | ENotNone e => HNotNone e (expr_ind' e)
    | EIn k e => HIn k e (expr_ind' e) | EInAliases e ks => HInAliases e ks (expr_ind' e)
    | EAnd a b => HAnd a b (expr_ind' a) (expr_ind' b)
    | EIsInst e t => HIsInst e t (expr_ind' e)
    | EReuse => HReuse | EConv => HConv | EHasNum => HHasNum
    | EComp k e it => HComp k e it (expr_ind' e) (expr_ind' it)
    | EMapComp a b it => HMapComp a b it (expr_ind' a) (expr_ind' b) (expr_ind' it)
    | ETuple l => HTuple l ((fix go l : Forall Q l := match l with
        | [] => Forall_nil _ | x :: r => Forall_cons _ (expr_ind' x) (go r) end) l)
    | EBuiltin b e => HBuiltin b e (expr_ind' e)
    | EDefDict f e => HDefDict f e (expr_ind' e)
    | ECoerce c f t e => HCoerce c f t e (expr_ind' e)
    | EEnumVal t e => HEnumVal t e (expr_ind' e) | EDeEnum t e => HDeEnum t e (expr_ind' e)
    | EStr e => HStr e (expr_ind' e) | EIso e => HIso e (expr_ind' e)
    | EFromIso t e => HFromIso t e (expr_ind' e) | ECtor t e => HCtor t e (expr_ind' e)
    | EFn f e => HFn f e (expr_ind' e) | EClsSer n e => HClsSer n e (expr_ind' e)
    | EClsDe n t e => HClsDe n t e (expr_ind' e)
    | ELegacySe t e d => HLegacySe t e d (expr_ind' e) (expr_ind' d)
    | ELegacyDe t e d => HLegacyDe t e d (expr_ind' e) (expr_ind' d)
    | EToObj e => HToObj e (expr_ind' e) | EFromGen i e n => HFromGen i e n (expr_ind' e)
    | ESeFn e n => HSeFn e n (expr_ind' e) | EDeFn t e n a => HDeFn t e n a (expr_ind' e)
    | EUnionSe f e => HUnionSe f e (expr_ind' e) | EUnionDe f e => HUnionDe f e (expr_ind' e)
    | ELitDe f e => HLitDe f e (expr_ind' e) | ENum e => HNum e (expr_ind' e)
    | EDefault f => HDefault f
    end.
End ExprInd.

Create HintDb mono.
Section Mono.
  Variables (P : program) (W : world) (call call' : callreq -> res pyval).
  Hypothesis Hcall : forall q, rle (call q) (call' q).

  Ltac mono := repeat first
    [ apply rle_refl | solve [auto with mono nocore] | apply Hcall | assumption
    | match goal with H : forall rho, rle (eval _ _ _ _ rho ?e) _ |- rle (eval _ _ _ _ _ ?e) _ => apply H end
    | apply rle_bind; [|intros] | apply rle_catch; [|intros]
    | apply rle_mapM_all; intros | apply rle_foldM; intros | apply rle_mapMi; intros
    | match goal with |- rle (match ?x with _ => _ end) _ => destruct x end ].

  Lemma eval_mono cx e : forall rho, rle (eval P W call cx rho e) (eval P W call' cx rho e).
  Proof.
    induction e using expr_ind'; intros rho; cbn [eval];
      try (match goal with H : Forall _ _ |- _ =>
             apply rle_bind; [apply rle_mapM; eapply Forall_impl; [|exact H]; cbv beta; auto|intros; apply rle_refl] end);
      mono.
  Qed.
  Hint Resolve eval_mono : mono.

  Lemma run_skip_mono s v : rle (run_skip P call s v) (run_skip P call' s v).
  Proof. destruct s as [f| | |[d|]]; simpl; mono. Qed.
  Hint Resolve run_skip_mono : mono.

  Lemma run_sstmt_mono cx rho m s : rle (run_sstmt P W call cx rho m s) (run_sstmt P W call' cx rho m s).
  Proof.
    unfold run_sstmt. mono.
  Qed.
  Hint Resolve run_sstmt_mono : mono.

  Lemma run_se_body_mono cx b o : rle (run_se_body P W call cx b o) (run_se_body P W call' cx b o).
  Proof.
    destruct b; simpl; mono.
  Qed.
  Hint Resolve run_se_body_mono : mono.

  Lemma run_dstmt_mono cx data ex vals s : rle (run_dstmt P W call cx data ex vals s) (run_dstmt P W call' cx data ex vals s).
  Proof.
    destruct s as [x|x proj e missing]; simpl; [mono|]. apply rle_bind; [mono|]. intros rho.
    destruct (eval_mono cx e rho) as [E|E]; rewrite E; [destruct missing; apply rle_NoFuel|apply rle_refl].
  Qed.
  Hint Resolve run_dstmt_mono : mono.

  Lemma run_de_body_mono cx b o : rle (run_de_body P W call cx b o) (run_de_body P W call' cx b o).
  Proof.
    destruct b; simpl; mono.
  Qed.
  Hint Resolve run_de_body_mono : mono.

  Lemma run_union_se_mono cx arms o : rle (run_union_se P W call cx arms o) (run_union_se P W call' cx arms o).
  Proof. induction arms as [|[t e] r IH]; simpl; mono. Qed.
  Hint Resolve run_union_se_mono : mono.

  Lemma run_arm_mono cx t e data : rle (run_arm P W call cx t e data) (run_arm P W call' cx t e data).
  Proof. unfold run_arm; mono. Qed.
  Hint Resolve run_arm_mono : mono.

  Lemma run_union_de_mono cx arms o : rle (run_union_de P W call cx arms o) (run_union_de P W call' cx arms o).
  Proof. induction arms as [|[t e] r IH]; simpl; mono. Qed.
  Hint Resolve run_union_de_mono : mono.

  Lemma step_mono K q : rle (step P W K call q) (step P W K call' q).
  Proof.
    destruct q; cbn [step]; unfold to_obj_body, from_obj_body; cbv zeta; mono.
  Qed.
End Mono.

Lemma run_mono_S P W K n : forall q, rle (run P W K n q) (run P W K (S n) q).
Proof.
  induction n; intros q; [apply rle_NoFuel|].
  change (rle (step P W K (run P W K n) q) (step P W K (run P W K (S n)) q)).
  now apply step_mono.
Qed.

Lemma run_mono P W K n m q r : n <= m -> run P W K n q = r -> r <> NoFuel -> run P W K m q = r.
Proof.
  intros L H N. induction L; [assumption|].
  destruct (run_mono_S P W K m q) as [E|E]; congruence.
Qed.

(** Any two decided outcomes of the same call agree. *)
Lemma run_det P W K n m q r r' :
  run P W K n q = r -> run P W K m q = r' -> r <> NoFuel -> r' <> NoFuel -> r = r'.
Proof.
  intros H1 H2 N1 N2. destruct (Nat.le_ge_cases n m) as [L|L].
  - rewrite <- H2. symmetry. eapply run_mono; eauto.
  - rewrite <- H1. eapply run_mono; eauto.
Qed.
