(** Fixed-size tuples (C39). *)
From Coq Require Import String List ZArith Bool Ascii Lia.
From Verif Require Import Base PyVal PyType Program Compat Syntax SeRender DeRender Eval Facts Mono Spec Cover DeRT Depend PropsSe PropsDe Ex.
Import ListNotations.
Open Scope string_scope.
Open Scope list_scope.

Lemma nth_opt_error {A} (l : list A) i : nth_opt l i = nth_error l i.
Proof. revert i. induction l; intros [|i]; simpl; auto. Qed.
Lemma nth_opt_beyond {A} (l : list A) i : List.length l <= i -> nth_opt l i = None.
Proof. rewrite nth_opt_error. apply nth_error_None. Qed.
Lemma nth_opt_lt {A} (l : list A) i a : nth_opt l i = Some a -> i < List.length l.
Proof. rewrite nth_opt_error. intros H. apply nth_error_Some. congruence. Qed.
Lemma nth_opt_some {A} (l : list A) i : i < List.length l -> exists a, nth_opt l i = Some a.
Proof. rewrite nth_opt_error. intros H. apply nth_error_Some in H. destruct (nth_error l i); [eauto|congruence]. Qed.
Lemma In_nth_opt {A} (l : list A) a : In a l -> exists i, nth_opt l i = Some a.
Proof. intros H. apply In_nth_error in H as [i H]. exists i. now rewrite nth_opt_error. Qed.
Lemma nth_opt_firstn {A} (l : list A) i n : i < n -> nth_opt (firstn n l) i = nth_opt l i.
Proof. revert i n. induction l as [|a l IH]; intros i [|n] H; try lia; [destruct i; reflexivity|]. destruct i as [|i]; [reflexivity|]. cbn. apply IH. lia. Qed.
Lemma mapM_nth {A B} (g : A -> res B) l l' : mapM g l = Ok l' -> forall i c, nth_opt l i = Some c -> exists w, g c = Ok w.
Proof.
  intros H. apply mapM_Ok in H. induction H as [|a b l l' E F IH]; intros [|i] c N; try discriminate; [|eauto]. injection N as <-. eauto.
Qed.

Definition seq_data (k : seqkind) : Prop := k = KList \/ k = KTuple \/ k = KDeque.

Section Tuple.
  Variables (P : program) (W : world) (K : list (tagging * pytype)).
  Notation run := (run P W K).
  Notation es := (enum_scalar P).

  (** A field read by the code that pyserde generates for its type, from the entry under its wire name *)
  Definition own_entry (d : classdef) (f : fielddef) (k : string) : Prop :=
    In f (c_fields d) /\ read f = true /\ f_flatten f = false /\ f_alias f = [] /\ f_deserializer f = None /\
    c_deserializer d = None /\ find_de P (c_class_de d) (f_type f) = None /\ wire_name W d f = Some k.

  Definition no_gen_ty (t : pytype) : bool := match t with TGen _ _ => false | _ => true end.

  Lemma field_code n tg t d m kvs ro dn o f k x :
    targets P t d -> dictlike d -> own_entry d f k -> no_gen_ty (f_type f) = true -> skey P kvs k = Some x ->
    from_dict P W K n (tg, t) (VMap m kvs) ro dn = Ok o ->
    exists n' attrs v e, n = S (S n') /\ c_post d (VObj (c_id d) attrs) = Ok o /\ slookup (f_name f) attrs = Some v /\
      de_gcore P W (de_cfg d true) (fieldarg d f data_var) (f_type f) = Ok e /\
      eval P W (run n') (top_ctx P d t ro dn) [("data", VMap m kvs)] e = Ok v.
  Proof.
    intros HT HD (Hf & R & FL & AL & FD & NL & FN & WN) NG SK H.
    destruct (from_dict_object _ _ _ _ _ _ _ _ _ _ _ HT HD (map_not_inst _ _ _ _ _ HT) H) as (n' & known & attrs & NN & _ & A & _ & B & _).
    destruct (B f Hf R) as (v & V1 & V2 & _).
    apply takes_plain in V2; [|exact FL]. unfold de_value in V2. inv_bind V2. rename a into e. rewrite render_nolegacy in Hb by exact NL.
    assert (RT : (e <- de_gcore P W (de_cfg d true) (fieldarg d f data_var) (f_type f) ;; de_default P W (fieldarg d f data_var) (f_type f) e) = Ok e).
    { rewrite de_ty_eq in Hb. change (d_class_de (de_cfg d true)) with (c_class_de d) in Hb. rewrite FN in Hb.
      change (da_deser (fieldarg d f data_var)) with (match f_deserializer f with Some (FFun _) => Some (Some (mangle (f_name f) "deserializer")) | Some FDefault => Some None | None => None end) in Hb.
      rewrite FD in Hb. unfold de_rest in Hb. destruct (f_type f); try exact Hb. discriminate NG. }
    clear Hb. inv_bind RT. rename a into e0.
    exists n', attrs, v, e0. split; [exact NN|]. split; [exact A|]. split; [exact V1|]. split; [exact Hb|].
    destruct (f_default f) as [df|] eqn:DF.
    - assert (DD : da_default (fieldarg d f data_var) = true) by (cbn; now rewrite DF).
      destruct (default_inv P W (fieldarg d f data_var) _ _ _ eq_refl FL DD RT) as (y & Y & ->).
      assert (EX := eval_exists P W d f y (run n') (top_ctx P d t ro dn) m kvs (or_introl AL) Y).
      unfold key_names in EX. rewrite WN, AL in EX. cbn [first_key] in EX. rewrite SK in EX. cbn [has_some] in EX.
      rewrite (eval_guarded _ _ _ _ _ _ _ _ _ _ (G_once _ _ _) EX) in V2. exact V2.
    - unfold de_default in RT. cbn [fieldarg field_arg da_default] in RT. rewrite DF in RT. cbn [has_some andb] in RT. injection RT as <-. exact V2.
  Qed.

  (** The data of a tuple element is only reached through its position. *)
  Lemma tuple_code n d cx m kvs f k sk l ts v :
    own_entry d f k -> f_type f = TTuple ts -> skey P kvs k = Some (VSeq sk l) -> seq_data sk ->
    forall e, de_gcore P W (de_cfg d true) (fieldarg d f data_var) (TTuple ts) = Ok e ->
    eval P W (run n) cx [("data", VMap m kvs)] e = Ok v ->
    exists vs, v = VSeq KTuple vs /\ List.length vs = List.length ts /\
      (forall i u, nth_opt ts i = Some u -> reads u = true -> i < List.length l) /\
      (forall m' kvs' sk' l', skey P kvs' k = Some (VSeq sk' l') -> seq_data sk' ->
         firstn (List.length ts) l' = firstn (List.length ts) l -> eval P W (run n) cx [("data", VMap m' kvs')] e = Ok v).
  Proof.
    intros (Hf & R & FL & AL & FD & NL & FN & WN) TY SK SD e E V. cbn [de_gcore] in E. destruct ts as [|t0 ts0]; [discriminate|].
    set (ts := t0 :: ts0) in *. inv_bind E. rename a into dat. inv_bind E. rename a into cs. injection E as <-.
    assert (D : dat = EKey data_var k).
    { unfold da_data in Hb. cbn [fieldarg field_arg da_inner da_iter] in Hb. inv_bind Hb. injection Hb as <-. apply key_wire in Hb1. rewrite WN in Hb1. now injection Hb1 as <-. }
    subst dat. cbn [eval] in V. inv_bind V. injection V as <-. rename a into vs, Hb1 into V. exists vs. split; [reflexivity|].
    assert (LC : List.length cs = List.length ts).
    { clear - Hb0. revert cs Hb0. generalize 0. generalize ts as r. induction r as [|t r IH]; intros i cs E; cbn [mapMi_from] in E; [injection E as <-; reflexivity|].
      inv_bind E. inv_bind E. injection E as <-. cbn [List.length]. erewrite IH; eauto. }
    assert (NTH : forall i u, nth_opt ts i = Some u -> exists c, nth_opt cs i = Some c /\
      de_ty P W (de_cfg d true) (inner_arg (fieldarg d f data_var) (show (EIdx (EKey data_var k) i)) (EIdx (EKey data_var k) i)) u = Ok c).
    { clear - Hb0. assert (G : forall i0 r cs, mapMi_from (fun n x => de_ty P W (de_cfg d true) (inner_arg (fieldarg d f data_var) (show (EIdx (EKey data_var k) n)) (EIdx (EKey data_var k) n)) x) i0 r = Ok cs ->
        forall i u, nth_opt r i = Some u -> exists c, nth_opt cs i = Some c /\
          de_ty P W (de_cfg d true) (inner_arg (fieldarg d f data_var) (show (EIdx (EKey data_var k) (i0 + i))) (EIdx (EKey data_var k) (i0 + i))) u = Ok c).
      { intros i0 r. revert i0. induction r as [|t r IH]; intros i0 cs' E i u N; [destruct i; discriminate|]. cbn [mapMi_from] in E. inv_bind E. inv_bind E. injection E as <-.
        destruct i as [|i]; cbn [nth_opt] in *.
        - injection N as <-. exists a. rewrite Nat.add_0_r. auto.
        - destruct (IH _ _ Hb1 _ _ N) as (c & C1 & C2). exists c. split; [exact C1|]. now rewrite <- Nat.add_succ_comm. }
      exact (G 0 ts cs Hb0). }
    assert (IDX : forall m kvs sk l i, skey P kvs k = Some (VSeq sk l) -> seq_data sk ->
      eval P W (run n) cx [("data", VMap m kvs)] (EIdx (EKey data_var k) i) = of_option XIndex (nth_opt l i)).
    { intros m1 kvs1 sk1 l1 i S1 D1. change (eval P W (run n) cx [("data", VMap m1 kvs1)] (EIdx (EKey data_var k) i)) with (x <- eval P W (run n) cx [("data", VMap m1 kvs1)] (EKey data_var k) ;; getidx P x i).
      rewrite eval_key. cbn [getitem]. unfold skey in S1. rewrite S1. cbn [bind getidx]. destruct D1 as [->|[->| ->]]; reflexivity. }
    split; [|split].
    - rewrite <- LC. eapply mapM_length; eauto.
    - intros i u N RD. destruct (Nat.lt_ge_cases i (List.length l)) as [L|L]; [exact L|exfalso].
      destruct (NTH _ _ N) as (c & C1 & C2).
      assert (DA : dead_arg P W (run n) cx [("data", VMap m kvs)] XIndex (inner_arg (fieldarg d f data_var) (show (EIdx (EKey data_var k) i)) (EIdx (EKey data_var k) i))).
      { apply dead_inner; [exact AL|]. rewrite (IDX _ _ _ _ i SK SD).
        now rewrite (nth_opt_beyond l i L). }
      assert (G := de_ty_dead P W (run n) cx [("data", VMap m kvs)] XIndex (de_cfg d true) u _ c DA (or_introl AL) C2). cbn [inner_arg da_inner] in G.
      destruct G as [[G _]|[G _]]; [|congruence].
      destruct (mapM_nth _ _ _ V i c C1) as (w & Hw). now apply G in Hw.
    - intros m' kvs' sk' l' SK' SD' FN'. cbn [eval].
      rewrite (mapM_ext (eval P W (run n) cx [("data", VMap m' kvs')]) (eval P W (run n) cx [("data", VMap m kvs)])); [now rewrite V|].
      intros c Hc. apply In_nth_opt in Hc as [i Hi].
      assert (LI : i < List.length ts) by (rewrite <- LC; eapply nth_opt_lt; eauto).
      destruct (nth_opt_some ts i LI) as [u N]. destruct (NTH _ _ N) as (c' & C1 & C2). assert (c' = c) by congruence. subst c'.
      set (leaf := fun e => exists i, i < List.length ts /\ e = EIdx (EKey data_var k) i).
      set (R' := fun r r' : env => exists l0, Forall (fun p => local (fst p)) l0 /\ r = l0 ++ [("data", VMap m' kvs')] /\ r' = l0 ++ [("data", VMap m kvs)]).
      assert (OK : okx leaf local True c).
      { eapply (de_ty_okx P W leaf local True true (or_introl eq_refl) (or_intror eq_refl) (de_cfg d true) u eq_refl); [| | |exact C2]; [| |discriminate].
        - unfold argok. cbn [inner_arg da_inner da_iter da_var da_alias da_flatten orb]. split; [intros _; apply okx_leaf; exists i; auto|]. split; [discriminate|].
          change (da_alias (fieldarg d f data_var)) with (f_alias f). change (da_flatten (fieldarg d f data_var)) with (f_flatten f). rewrite AL, FL. split; [congruence|discriminate].
        - left. left. exact AL. }
      replace (eval P W (run n) cx [("data", VMap m kvs)] c) with (eval P W (run n) (set_skip (x_skip cx) cx) [("data", VMap m kvs)] c) by (destruct cx; reflexivity).
      apply (eval_okx P W (run n) cx (x_skip cx) leaf local True R'); auto.
      + intros r r' x (l0 & F & -> & ->) HL. rewrite !slookup_app. destruct (slookup x l0); [reflexivity|]. destruct HL as [-> | ->]; reflexivity.
      + intros r r' x (l0 & F & -> & ->). exists (("v", x) :: l0). split; [constructor; [left|]; auto|split; reflexivity].
      + intros r r' x (l0 & F & -> & ->). exists (("k", x) :: l0). split; [constructor; [right|]; auto|split; reflexivity].
      + intros e0 r r' (j & J & ->) (l0 & F & -> & ->).
        replace (eval P W (run n) (set_skip (x_skip cx) cx)) with (eval P W (run n) cx) by (destruct cx; reflexivity).
        assert (SH : forall m kvs, eval P W (run n) cx (l0 ++ [("data", VMap m kvs)]) (EIdx (EKey data_var k) j) = eval P W (run n) cx [("data", VMap m kvs)] (EIdx (EKey data_var k) j)).
        { intros m1 kvs1. cbn [eval data_var]. rewrite (data_found l0 _ F). reflexivity. }
        rewrite !SH, (IDX _ _ _ _ j SK SD), (IDX _ _ _ _ j SK' SD'). f_equal.
        rewrite <- (nth_opt_firstn l' j _ J), <- (nth_opt_firstn l j _ J). now rewrite FN'.
      + exists []. repeat split; constructor.
  Qed.

  (** Elements beyond the size of the tuple type are not looked at: the field becomes a tuple of that size that is
      determined by the elements up to it. *)
  Theorem C39_long_partial n tg t d m m' kvs kvs' ro dn o o' f k ts sk sk' l l' :
    targets P t d -> dictlike d -> own_entry d f k -> f_type f = TTuple ts ->
    skey P kvs k = Some (VSeq sk l) -> seq_data sk -> skey P kvs' k = Some (VSeq sk' l') -> seq_data sk' ->
    firstn (List.length ts) l' = firstn (List.length ts) l ->
    from_dict P W K n (tg, t) (VMap m kvs) ro dn = Ok o -> from_dict P W K n (tg, t) (VMap m' kvs') ro dn = Ok o' ->
    exists attrs attrs' vs, c_post d (VObj (c_id d) attrs) = Ok o /\ c_post d (VObj (c_id d) attrs') = Ok o' /\
      slookup (f_name f) attrs = Some (VSeq KTuple vs) /\ slookup (f_name f) attrs' = Some (VSeq KTuple vs) /\
      List.length vs = List.length ts.
  Proof.
    intros HT HD OE TY SK SD SK' SD' FN H H'.
    destruct (field_code _ _ _ _ _ _ _ _ _ _ _ _ HT HD OE ltac:(now rewrite TY) SK H) as (n1 & attrs & v & e & N1 & A & B & C & D).
    destruct (field_code _ _ _ _ _ _ _ _ _ _ _ _ HT HD OE ltac:(now rewrite TY) SK' H') as (n2 & attrs' & v' & e' & N2 & A' & B' & C' & D').
    assert (n2 = n1) by congruence. subst n2. rewrite TY in C, C'. rewrite C in C'. injection C' as <-.
    destruct (tuple_code _ _ _ _ _ _ _ _ _ _ _ OE TY SK SD e C D) as (vs & -> & L & _ & S). rewrite (S _ _ _ _ SK' SD' FN) in D'. injection D' as <-.
    exists attrs, attrs', vs. auto.
  Qed.

  (** Data with fewer elements is rejected if one of the missing elements is of a type that looks at its data (all but None and
      tuples of such). *)
  Theorem C39_short_partial n tg t d m kvs ro dn f k ts sk l i u :
    targets P t d -> dictlike d -> own_entry d f k -> f_type f = TTuple ts ->
    skey P kvs k = Some (VSeq sk l) -> seq_data sk -> nth_error ts i = Some u -> reads u = true -> List.length l <= i ->
    forall o, from_dict P W K n (tg, t) (VMap m kvs) ro dn <> Ok o.
  Proof.
    intros HT HD OE TY SK SD N RD L o H.
    destruct (field_code _ _ _ _ _ _ _ _ _ _ _ _ HT HD OE ltac:(now rewrite TY) SK H) as (n1 & attrs & v & e & N1 & A & B & C & D).
    rewrite TY in C. destruct (tuple_code _ _ _ _ _ _ _ _ _ _ _ OE TY SK SD e C D) as (vs & -> & _ & S & _).
    rewrite <- nth_opt_error in N. specialize (S _ _ N RD). lia.
  Qed.

  (** As class argument of from_dict a tuple type reads each element as the type in its place and accepts any number of elements
      up to its size. *)
  Theorem C39_top_partial n tg ts sk l ro dn v :
    first_de P (TTuple ts) = None -> from_dict P W K (S n) (tg, TTuple ts) (VSeq sk l) ro dn = Ok v ->
    exists vs, v = VSeq KTuple vs /\ List.length l <= List.length ts /\
      Forall2 (fun tx v => from_dict P W K n (TagExternal, fst tx) (snd tx) ro dn = Ok v) (combine ts l) vs.
  Proof.
    intros FD H. unfold from_dict in *. cbn [Eval.run step unalias is_union andb] in H.
    assert (TI : type_is (VSeq sk l) (TTuple ts) = false) by (destruct sk; reflexivity). rewrite TI in H. clear TI.
    unfold from_obj_body in H. rewrite FD in H. change (iter P (VSeq sk l)) with (Ok l) in H. cbn [bind] in H.
    destruct (mapMi_from _ 0 l) as [vs| |] eqn:M; cbn [bind catch] in H; try discriminate; [|destruct e; discriminate]. injection H as <-.
    exists vs. split; [reflexivity|].
    assert (G : forall r i vs, mapMi_from (fun i e => a <- of_option XIndex (nth_opt ts i) ;; run n (QFromObj (TagExternal, a) e true ro dn)) i r = Ok vs ->
      (r = [] \/ i + List.length r <= List.length ts) /\ Forall2 (fun tx v => run n (QFromObj (TagExternal, fst tx) (snd tx) true ro dn) = Ok v) (combine (skipn i ts) r) vs).
    { intros r. induction r as [|x r IH]; intros i ws E; cbn [mapMi_from] in E.
      - injection E as <-. split; [now left|]. destruct (skipn i ts); constructor.
      - inv_bind E. inv_bind E. injection E as <-. inv_bind Hb. destruct (nth_opt ts i) as [u|] eqn:N; [|discriminate]. injection Hb1 as ->.
        destruct (IH _ _ Hb0) as [I1 I2]. pose proof (nth_opt_lt _ _ _ N) as LT. split.
        + right. cbn [List.length]. destruct I1 as [->|I1]; cbn [List.length]; lia.
        + assert (SK : skipn i ts = a1 :: skipn (S i) ts).
          { clear - N. revert i N. induction ts as [|t r IH]; intros [|i] N; try discriminate; [injection N as ->; reflexivity|]. cbn [skipn]. rewrite IH by exact N. reflexivity. }
          rewrite SK. cbn [combine]. constructor; assumption. }
    destruct (G _ _ _ M) as [G1 G2]. split; [|exact G2]. destruct G1 as [->|G1]; cbn [List.length] in *; lia.
  Qed.
End Tuple.

Module TupleEx.
  Definition ft := with_names (Some "pair") [] (fld "t" (TTuple [TInt; TOpt TString])).
  Definition C := cls "C" [fld "n" TInt; ft].
  Definition P := prog [C] [].
  Definition data (z : Z) (l : list pyval) := [(VStr "n", VInt z); (VStr "pair", vlist l)].
  Lemma target : targets P (TClass "C") C.
  Proof. exists "C". repeat split. Qed.
  Lemma dl : dictlike C.
  Proof. split; [reflexivity|]. repeat constructor; simpl; intuition discriminate. Qed.
  Lemma oe : own_entry P W0 C ft "pair".
  Proof. repeat split. simpl. auto. Qed.

  Example C39_long_ex z : exists attrs attrs' vs, Ok (VObj "C" attrs) = Ok (VObj "C" [("n", VInt 1); ("t", VSeq KTuple [VInt z; VNone])]) /\
    Ok (VObj "C" attrs') = Ok (VObj "C" [("n", VInt 2); ("t", VSeq KTuple [VInt z; VNone])]) /\
    slookup "t" attrs = Some (VSeq KTuple vs) /\ slookup "t" attrs' = Some (VSeq KTuple vs) /\ List.length vs = 2.
  Proof.
    apply (C39_long_partial P W0 [] 9 TagExternal (TClass "C") C MDict MDict (data 1 [VInt z; VNone]) (data 2 [VInt z; VNone; VStr "x"]) None None _ _
      ft "pair" [TInt; TOpt TString] KList KList [VInt z; VNone] [VInt z; VNone; VStr "x"] target dl oe); try reflexivity; now left.
  Qed.
  Example C39_short_ex z o : from_dict P W0 [] 9 (TagExternal, TClass "C") (VMap MDict (data 1 [VInt z])) None None <> Ok o.
  Proof.
    apply (C39_short_partial P W0 [] 9 TagExternal (TClass "C") C MDict (data 1 [VInt z]) None None ft "pair" [TInt; TOpt TString] KList [VInt z] 1 (TOpt TString) target dl oe);
      try reflexivity. now left.
  Qed.
  Example C39_top_ex z : exists vs, VSeq KTuple [VInt z] = VSeq KTuple vs /\ 1 <= 2 /\
    Forall2 (fun tx v => from_dict P W0 [] 1 (TagExternal, fst tx) (snd tx) None None = Ok v) [(TInt, VInt z)] vs.
  Proof. apply (C39_top_partial P W0 [] 1 TagExternal [TInt; TString] KList [VInt z] None None _ eq_refl). reflexivity. Qed.
End TupleEx.

Print Assumptions C39_long_partial.
Print Assumptions C39_short_partial.
Print Assumptions C39_top_partial.
