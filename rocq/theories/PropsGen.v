(** Type arguments of generic classes (C38). *)
From Coq Require Import String List ZArith Bool Ascii Lia.
From Verif Require Import Base PyVal PyType Program Compat Syntax SeRender DeRender Eval Facts Mono Spec Cover DeRT Depend PropsSe PropsDe PropsTuple Ex.
Import ListNotations.
Open Scope string_scope.
Open Scope list_scope.

Section Gen.
  Variables (P : program) (W : world) (K : list (tagging * pytype)).
  Notation run := (run P W K).

  (** The generated code of a field, run in any context *)
  Lemma value_code n d cx m kvs f k x v : own_entry P W d f k -> skey P kvs k = Some x ->
    de_value P W K n d cx (VMap m kvs) f = Ok v ->
    match f_type f with
    | TGen c args => find_de P (c_class_de d) (TClass c) = None -> exists e, de_class W (de_cfg d true) (with_targs (fieldarg d f data_var) (map (targ_str P) args)) c = Ok e /\
        eval P W (run n) cx [("data", VMap m kvs)] e = Ok v
    | t => exists e, de_gcore P W (de_cfg d true) (fieldarg d f data_var) t = Ok e /\ eval P W (run n) cx [("data", VMap m kvs)] e = Ok v
    end.
  Proof.
    intros (Hf & R & FL & AL & FD & NL & FN & WN) SK V. unfold de_value in V. inv_bind V. rename a into e. rewrite render_nolegacy in Hb by exact NL.
    rewrite de_ty_eq in Hb. change (d_class_de (de_cfg d true)) with (c_class_de d) in Hb. rewrite FN in Hb.
    change (da_deser (fieldarg d f data_var)) with (match f_deserializer f with Some (FFun _) => Some (Some (mangle (f_name f) "deserializer")) | Some FDefault => Some None | None => None end) in Hb.
    rewrite FD in Hb.
    assert (DEF : forall a t e0 e1, a = fieldarg d f data_var \/ (exists ta, a = with_targs (fieldarg d f data_var) ta) -> de_default P W a t e0 = Ok e1 ->
      forall r, eval P W (run n) cx [("data", VMap m kvs)] e1 = Ok r -> eval P W (run n) cx [("data", VMap m kvs)] e0 = Ok r).
    { intros a t e0 e1 A RT r E1.
      assert (IT : da_iter a = false) by (destruct A as [->|[ta ->]]; reflexivity).
      assert (FLA : da_flatten a = false) by (destruct A as [->|[ta ->]]; exact FL).
      assert (DD : da_default a = has_some (f_default f)) by (destruct A as [->|[ta ->]]; reflexivity).
      destruct (f_default f) as [df|] eqn:DF.
      - destruct (default_inv P W a _ _ _ IT FLA DD RT) as (y & Y & ->).
        assert (Y' : exists_expr W (fieldarg d f data_var) = Ok y) by (destruct A as [->|[ta ->]]; exact Y).
        assert (EX := eval_exists P W d f y (run n) cx m kvs (or_introl AL) Y').
        unfold key_names in EX. rewrite WN, AL in EX. cbn [first_key] in EX. rewrite SK in EX. cbn [has_some] in EX.
        rewrite (eval_guarded _ _ _ _ _ _ _ _ _ _ (G_once _ _ _) EX) in E1. exact E1.
      - unfold de_default in RT. rewrite DD in RT. cbn [has_some andb] in RT. injection RT as <-. exact E1. }
    destruct (f_type f) eqn:TY; unfold de_rest in Hb;
      lazymatch type of Hb with
      | de_gen _ _ _ _ _ _ = _ => idtac
      | _ => inv_bind Hb; eexists; split; [exact Hb0|]; eapply DEF; [left; reflexivity|exact Hb|exact V]
      end.
    intros NC. unfold de_gen in Hb. change (d_class_de (de_cfg d true)) with (c_class_de d) in Hb. rewrite NC in Hb. inv_bind Hb. inv_bind Hb. exists a. split.
    - exact Hb0.
    - eapply DEF; [right; eexists; reflexivity|exact Hb1|]. eapply DEF; [right; eexists; reflexivity|exact Hb|]. exact V.
  Qed.

  Lemma own_data d f k a t e : own_entry P W d f k -> a = fieldarg d f data_var \/ (exists ta, a = with_targs (fieldarg d f data_var) ta) ->
    has_none_arg t = false -> da_data W a t = Ok e -> e = EKey data_var k.
  Proof.
    intros (Hf & R & FL & AL & FD & NL & FN & WN) A NO E.
    assert (EK : da_data W (fieldarg d f data_var) t = Ok e) by (destruct A as [->|[ta ->]]; exact E).
    unfold da_data in EK. cbn [fieldarg field_arg da_inner da_iter] in EK. inv_bind EK. apply key_wire in Hb. rewrite WN in Hb. injection Hb as <-.
    rewrite NO in EK. injection EK as <-. reflexivity.
  Qed.

  Lemma index_of_at x l : forall i n, NoDup l -> nth_error l i = Some x -> index_of x n l = Some (n + i).
  Proof.
    induction l as [|y l IH]; intros [|i] n ND H; try discriminate; cbn [nth_error] in H; cbn [index_of].
    - injection H as <-. rewrite String.eqb_refl. now rewrite Nat.add_0_r.
    - inversion ND as [|? ? N1 N2]; subst. destruct (String.eqb_spec y x) as [->|NE].
      + exfalso. apply N1. eapply nth_error_In; eauto.
      + rewrite (IH i (S n) N2 H). f_equal. lia.
  Qed.
  Lemma index_of_out x l : forall n, ~ In x l -> index_of x n l = None.
  Proof.
    induction l as [|y l IH]; intros n H; [reflexivity|]. cbn [index_of]. destruct (String.eqb_spec y x) as [->|]; [exfalso; apply H; now left|].
    apply IH. intros ?. apply H. now right.
  Qed.

  (** A field whose type is a type variable is read by from_dict as the type that the variable stands for. *)
  Lemma var_field n d cx m kvs f k T x v : own_entry P W d f k -> f_type f = TVar T -> skey P kvs k = Some x ->
    de_value P W K n d cx (VMap m kvs) f = Ok v ->
    exists tv t, c_tvars d = Some tv /\ get_generic_arg (x_mg cx) (x_mgtv cx) (x_vta cx) (index_of T 0 tv) = Ok t /\
      run n (QFromObj (TagExternal, t) x true (Some (x_reuse cx)) (x_dn cx)) = Ok v.
  Proof.
    intros OE TY SK V. apply (value_code _ _ _ _ _ _ _ _ _ OE SK) in V. rewrite TY in V. destruct V as (e & E & V). cbn [de_gcore] in E.
    change (d_cls (de_cfg d true)) with d in E. destruct (c_tvars d) as [tv|]; [|discriminate]. inv_bind E. injection E as <-.
    apply (own_data _ _ _ _ (TVar T) _ OE (or_introl eq_refl) eq_refl) in Hb. subst a. exists tv.
    cbn [eval] in V. inv_bind V. exists a. split; [reflexivity|]. split; [exact Hb|].
    change (match slookup "data" [("data", VMap m kvs)] with Some v0 => Ok v0 | None => Raise XName end) with (Ok (VMap m kvs)) in V.
    unfold skey in SK. cbn [data_var eval slookup String.eqb Ascii.eqb Bool.eqb bind of_option getitem] in V. rewrite SK in V. cbn [of_option bind] in V. exact V.
  Qed.

  Lemma from_any n tg x nm ro dn v : first_de P TAny = None -> run n (QFromObj (tg, TAny) x nm ro dn) = Ok v -> v = x.
  Proof.
    intros FD H. destruct n as [|n]; [discriminate|]. cbn [Eval.run step unalias is_union andb] in H.
    destruct (type_is x TAny); [now injection H|]. unfold from_obj_body in H. rewrite FD in H. cbn [catch] in H. now injection H.
  Qed.

  (** Whatever its type argument, from_dict(Foo[A], data) keeps the data of a field whose type is a type variable of Foo as it is;
      the claim that it is read as A is C38_refuted. *)
  Theorem C38_kept_partial n tg t d m kvs ro dn o f k T x :
    targets P t d -> dictlike d -> own_entry P W d f k -> f_type f = TVar T -> first_de P TAny = None ->
    skey P kvs k = Some x -> from_dict P W K n (tg, t) (VMap m kvs) ro dn = Ok o ->
    exists attrs, c_post d (VObj (c_id d) attrs) = Ok o /\ slookup (f_name f) attrs = Some x.
  Proof.
    intros HT HD OE TY FA SK H. pose proof OE as (Hf & R & FL & _).
    destruct (from_dict_object _ _ _ _ _ _ _ _ _ _ _ HT HD (map_not_inst _ _ _ _ _ HT) H) as (n' & known & attrs & NN & _ & A & _ & B & _).
    destruct (B f Hf R) as (v & V1 & V2 & _). exists attrs. split; [exact A|].
    apply takes_plain in V2; [|exact FL]. destruct (var_field _ _ _ _ _ _ _ _ _ _ OE TY SK V2) as (tv & u & _ & G & E).
    assert (u = TAny).
    { cbn [top_ctx ctx_of de_ctx x_mg x_mgtv x_vta] in G. unfold get_generic_arg in G. destruct (unalias t), (c_tvars d); now injection G. }
    subst u. apply from_any in E; [|exact FA]. congruence.
  Qed.

  (** Among the types a class refers to, only the class [c] (possibly with type arguments) bears its name. *)
  Definition sole_name (d : classdef) (c : string) : Prop :=
    forall t, reach P d t -> nominal t = true -> typename P t = typename P (TClass c) -> t = TClass c \/ exists a, t = TGen c a.

  Lemma sole_resolve d c t : sole_name d c -> resolve P (de_globals P d) (TClass c) = Ok t -> t = TClass c.
  Proof.
    intros SN H. cbn [resolve] in H. unfold lookup_name in H. destruct (slookup _ _) as [u|] eqn:E; [|discriminate]. injection H as ->.
    unfold de_globals in E.
    rewrite fold_left_ext with (g := fun (g : list (string * pytype)) (t : pytype) =>
      if is_primitive P t && negb (is_enum t) && negb (is_primitive_subclass P t) then g
      else (typename P t, match t with TGen c _ => TClass c | _ => t end) :: g) in E
      by (intros a u; destruct (is_primitive P u && _ && _); [reflexivity|]; now destruct u).
    rewrite (globals_lookup P (fun t => is_primitive P t && negb (is_enum t) && negb (is_primitive_subclass P t)) (fun t => match t with TGen c _ => TClass c | _ => t end)) in E.
    destruct (find _ _) as [u|] eqn:F; [|discriminate]. injection E as E. apply find_some in F as [Hu F]. apply in_rev in Hu.
    apply andb_prop in F as [F1 F2]. apply String.eqb_eq in F2. apply negb_true_iff in F1.
    pose proof (proj1 (Forall_forall _ _) (iter_types_sound P d) _ Hu) as S.
    pose proof (proj1 (Forall_forall _ _) (iter_types_leaf P d) _ Hu) as L.
    destruct (isleaf_nominal_or_prim u L) as [N|[[p ->]|[nn [p ->]]]]; try discriminate.
    destruct (SN u S N F2) as [->|[a ->]]; now subst t.
  Qed.

  (** The code of a field whose type is a generic class with type arguments calls that class with them. *)
  Lemma gen_field n d cx m kvs f k c d' vs x v : own_entry P W d f k -> f_type f = TGen c vs -> find_de P (c_class_de d) (TClass c) = None ->
    get_class P c = Some d' -> get_class P (c_id d) = Some d -> x_cls cx = d -> x_g cx = de_globals P d -> sole_name d c -> skey P kvs k = Some x ->
    de_value P W K n d cx (VMap m kvs) f = Ok v ->
    run n (QDe d' x true (Some (x_reuse cx)) (x_dn cx) (x_mg cx) (x_mgtv cx) (Some (map (targ_str P) vs))) = Ok v.
  Proof.
    intros OE TY FC GC GD XC XG SN SK V. apply (value_code _ _ _ _ _ _ _ _ _ OE SK) in V. rewrite TY in V. destruct (V FC) as (e & E & V'). clear V. rename V' into V.
    unfold de_class in E. inv_bind E. injection E as <-. pose proof OE as (_ & _ & FL & _).
    change (da_flatten (with_targs (fieldarg d f data_var) (map (targ_str P) vs))) with (f_flatten f) in Hb. rewrite FL in Hb.
    apply (own_data _ _ _ _ (TClass c) _ OE (or_intror (ex_intro _ _ eq_refl)) eq_refl) in Hb. subst a.
    cbn [eval] in V. inv_bind V. rename a into d0, Hb into D0. inv_bind V. rename a into x0, Hb into X0.
    assert (x0 = x).
    { unfold skey in SK. cbn [data_var eval slookup String.eqb Ascii.eqb Bool.eqb bind of_option getitem] in X0. rewrite SK in X0. now injection X0. }
    subst x0. assert (d0 = d').
    { change (da_parent (with_targs (fieldarg d f data_var) (map (targ_str P) vs))) with (Some (c_id d)) in D0. cbv iota in D0.
      destruct (String.eqb_spec (c_id d) c) as [E|E].
      - injection D0 as <-. rewrite XC. congruence.
      - inv_bind D0. rewrite XG in Hb. apply (sole_resolve _ _ _ SN) in Hb. subst a. rewrite GC in D0. now injection D0. }
    subst d0. exact V.
  Qed.

  (** If a generic class refers to another one in the type of a field, as in

        class Baz(Generic[U]): foo: Foo[U]        class Foo(Generic[T]): v: T

      from_dict(Baz[A], data) reads the entry of v as from_dict(A, ...) does. *)
  Theorem C38_nested_partial n tg t B d args tv m kvs ro dn o f k c d' vs tv' m' kvs' g k' T i U j A x :
    unalias t = TGen B args -> targets P t d -> dictlike d -> c_tvars d = Some tv -> NoDup tv -> List.length args = List.length tv ->
    own_entry P W d f k -> f_type f = TGen c vs -> find_de P (c_class_de d) (TClass c) = None -> sole_name d c ->
    get_class P c = Some d' -> dictlike d' -> c_tvars d' = Some tv' -> NoDup tv' -> own_entry P W d' g k' -> f_type g = TVar T ->
    nth_error tv' i = Some T -> nth_error vs i = Some (TVar U) -> nth_error tv j = Some U -> nth_error args j = Some A ->
    skey P kvs k = Some (VMap m' kvs') -> skey P kvs' k' = Some x ->
    from_dict P W K n (tg, t) (VMap m kvs) ro dn = Ok o ->
    exists n' attrs o' attrs' v, c_post d (VObj (c_id d) attrs) = Ok o /\ slookup (f_name f) attrs = Some o' /\
      c_post d' (VObj c attrs') = Ok o' /\ slookup (f_name g) attrs' = Some v /\
      from_dict P W K n' (TagExternal, A) x (Some match ro with Some r => r | None => c_reuse d end) dn = Ok v.
  Proof.
    intros TU HT HD TV ND LA OE TY FC SN GC HD' TV' ND' OE' TY' NT NV NU NA SK SK' H. pose proof OE as (Hf & R & FL & _). pose proof OE' as (Hg & R' & FL' & _).
    destruct (from_dict_object _ _ _ _ _ _ _ _ _ _ _ HT HD (map_not_inst _ _ _ _ _ HT) H) as (n1 & known & attrs & NN & _ & PO & _ & FS & _).
    destruct (FS f Hf R) as (o' & V1 & V2 & _). apply takes_plain in V2; [|exact FL].
    assert (GD : get_class P (c_id d) = Some d) by (destruct HT as (? & _ & G & _); now apply get_class_self in G).
    apply (gen_field _ _ (top_ctx P d t ro dn) _ _ _ _ _ _ _ _ _ OE TY FC GC GD eq_refl eq_refl SN SK) in V2.
    cbn [top_ctx ctx_of de_ctx x_reuse x_dn x_mg x_mgtv] in V2. rewrite TU, TV in V2.
    destruct n1 as [|n1]; [discriminate V2|]. destruct HD' as (T' & N').
    destruct (from_dict_fields P W K _ _ _ _ _ _ _ _ _ T' N' V2) as (known' & attrs' & _ & PO' & _ & FS' & _).
    destruct (FS' g Hg R') as (v & V3 & V4 & _). apply takes_plain in V4; [|exact FL'].
    destruct (var_field _ _ _ _ _ _ _ _ _ _ OE' TY' SK' V4) as (tv0 & u & TV0 & G & E). assert (tv0 = tv') by congruence. subst tv0.
    rewrite (get_class_id _ _ _ GC) in PO'. cbn [ctx_of de_ctx x_mg x_mgtv x_vta x_reuse x_dn] in G, E. unfold flag in E.
    assert (u = A).
    { assert (NE : tv <> []) by (intros ->; destruct j; discriminate).
      destruct tv as [|tv0 tvr]; [congruence|]. unfold get_generic_arg in G. rewrite (proj2 (Nat.eqb_eq _ _) LA) in G.
      rewrite (index_of_at _ _ _ 0 ND' NT) in G. cbn [Nat.add] in G. rewrite nth_opt_error, nth_error_map, NV in G. cbn [option_map of_option bind targ_str] in G.
      rewrite (index_of_at _ _ _ 0 ND NU) in G. cbn [Nat.add] in G. rewrite nth_opt_error, NA in G. now injection G. }
    subst u. exists n1, attrs, o', attrs', v. repeat (split; [assumption|]). exact E.
  Qed.

  (** If the outer class is not generic, the entry is kept as it is, also when the field's type is Foo[A]. *)
  Theorem C38_field_kept_partial n tg t C d m kvs ro dn o f k c d' vs m' kvs' g k' T x :
    unalias t = TClass C -> targets P t d -> dictlike d ->
    own_entry P W d f k -> f_type f = TGen c vs -> find_de P (c_class_de d) (TClass c) = None -> sole_name d c ->
    get_class P c = Some d' -> dictlike d' -> own_entry P W d' g k' -> f_type g = TVar T -> first_de P TAny = None ->
    skey P kvs k = Some (VMap m' kvs') -> skey P kvs' k' = Some x ->
    from_dict P W K n (tg, t) (VMap m kvs) ro dn = Ok o ->
    exists attrs o' attrs', c_post d (VObj (c_id d) attrs) = Ok o /\ slookup (f_name f) attrs = Some o' /\
      c_post d' (VObj c attrs') = Ok o' /\ slookup (f_name g) attrs' = Some x.
  Proof.
    intros TU HT HD OE TY FC SN GC HD' OE' TY' FA SK SK' H. pose proof OE as (Hf & R & FL & _). pose proof OE' as (Hg & R' & FL' & _).
    destruct (from_dict_object _ _ _ _ _ _ _ _ _ _ _ HT HD (map_not_inst _ _ _ _ _ HT) H) as (n1 & known & attrs & NN & _ & PO & _ & FS & _).
    destruct (FS f Hf R) as (o' & V1 & V2 & _). apply takes_plain in V2; [|exact FL].
    assert (GD : get_class P (c_id d) = Some d) by (destruct HT as (? & _ & G & _); now apply get_class_self in G).
    apply (gen_field _ _ (top_ctx P d t ro dn) _ _ _ _ _ _ _ _ _ OE TY FC GC GD eq_refl eq_refl SN SK) in V2.
    cbn [top_ctx ctx_of de_ctx x_reuse x_dn x_mg x_mgtv] in V2. rewrite TU in V2.
    destruct n1 as [|n1]; [discriminate V2|]. destruct HD' as (T' & N').
    destruct (from_dict_fields P W K _ _ _ _ _ _ _ _ _ T' N' V2) as (known' & attrs' & _ & PO' & _ & FS' & _).
    destruct (FS' g Hg R') as (v & V3 & V4 & _). apply takes_plain in V4; [|exact FL'].
    destruct (var_field _ _ _ _ _ _ _ _ _ _ OE' TY' SK' V4) as (tv0 & u & TV0 & G & E).
    rewrite (get_class_id _ _ _ GC) in PO'. cbn [ctx_of de_ctx x_mg x_mgtv x_vta x_reuse x_dn] in G, E. unfold get_generic_arg in G. injection G as <-.
    apply from_any in E; [|exact FA]. subst v. exists attrs, o', attrs'. auto.
  Qed.
End Gen.

Module GenEx.
  Definition fv := fld "v" (TVar "T").
  Definition ff := fld "foo" (TGen "Foo" [TPrim PInt; TVar "U"]).
  Definition A := cls "A" [fld "x" TInt].
  Definition Foo := generic ["S"; "T"] (cls "Foo" [fld "s" (TVar "S"); fv]).
  Definition Baz := generic ["U"] (cls "Baz" [ff]).
  Definition Plain := cls "Plain" [ff].
  Definition P := prog [A; Foo; Baz; Plain] [].
  Definition inner := [(VStr "s", VInt 3); (VStr "v", dict [("x", VInt 1)])].
  Definition data := [(VStr "foo", VMap MDict inner)].
  Lemma target c d : class_of (TGen c [TClass "A"]) = Some c -> get_class P c = Some d -> targets P (TGen c [TClass "A"]) d.
  Proof. intros H G. exists c. auto. Qed.
  Lemma dl d : In d [Foo; Baz; Plain] -> dictlike d.
  Proof. intros [<-|[<-|[<-|[]]]]; (split; [reflexivity|]; repeat constructor; simpl; intuition discriminate). Qed.
  Lemma oe_v : own_entry P W0 Foo fv "v".
  Proof. repeat split; simpl; auto. Qed.
  Lemma oe_f d : In d [Baz; Plain] -> own_entry P W0 d ff "foo".
  Proof. intros [<-|[<-|[]]]; repeat split; simpl; auto. Qed.
  Lemma reach_f d t : In d [Baz; Plain] -> reach P d t -> t = TClass (c_id d) \/ sub_ty t (f_type ff).
  Proof.
    intros HD H. induction H as [|f t Hf _ S|c d' f t H IH G Hf _ S].
    - now left.
    - right. destruct HD as [<-|[<-|[]]]; destruct Hf as [<-|[]]; exact S.
    - destruct IH as [E|E]; [|inversion E]. injection E as ->. assert (d' = d) by (destruct HD as [<-|[<-|[]]]; now injection G).
      subst d'. right. destruct HD as [<-|[<-|[]]]; destruct Hf as [<-|[]]; exact S.
  Qed.
  Lemma sole d : In d [Baz; Plain] -> sole_name P d "Foo".
  Proof.
    intros HD t R N E. destruct (reach_f d t HD R) as [->|S].
    - destruct HD as [<-|[<-|[]]]; vm_compute in E; discriminate.
    - inversion S; subst. right. eexists. reflexivity.
  Qed.
  (* Baz[A]: the data of v becomes an A although s is kept. *)
  Example nested_runs : from_dict P W0 [] 20 (TagExternal, TGen "Baz" [TClass "A"]) (VMap MDict data) None None =
    Ok (VObj "Baz" [("foo", VObj "Foo" [("s", VInt 3); ("v", VObj "A" [("x", VInt 1)])])]).
  Proof. vm_compute. reflexivity. Qed.
  Example nested_applies : exists n' attrs o' attrs' v,
    c_post Baz (VObj "Baz" attrs) = Ok (VObj "Baz" [("foo", VObj "Foo" [("s", VInt 3); ("v", VObj "A" [("x", VInt 1)])])]) /\
    slookup "foo" attrs = Some o' /\ c_post Foo (VObj "Foo" attrs') = Ok o' /\ slookup "v" attrs' = Some v /\
    from_dict P W0 [] n' (TagExternal, TClass "A") (dict [("x", VInt 1)]) (Some true) None = Ok v.
  Proof.
    refine (C38_nested_partial P W0 [] 20 TagExternal (TGen "Baz" [TClass "A"]) "Baz" Baz [TClass "A"] ["U"] MDict data None None _ ff "foo" "Foo" Foo [TPrim PInt; TVar "U"] ["S"; "T"]
      MDict inner fv "v" "T" 1 "U" 0 (TClass "A") _ eq_refl (target "Baz" Baz eq_refl eq_refl) (dl Baz _) eq_refl _ eq_refl (oe_f Baz _) eq_refl eq_refl (sole Baz _) eq_refl (dl Foo _) eq_refl _ oe_v eq_refl
      eq_refl eq_refl eq_refl eq_refl eq_refl eq_refl nested_runs); simpl; auto; repeat constructor; simpl; intuition discriminate.
  Qed.
  Example field_applies : exists attrs o' attrs',
    c_post Plain (VObj "Plain" attrs) = Ok (VObj "Plain" [("foo", VObj "Foo" [("s", VInt 3); ("v", dict [("x", VInt 1)])])]) /\
    slookup "foo" attrs = Some o' /\ c_post Foo (VObj "Foo" attrs') = Ok o' /\ slookup "v" attrs' = Some (dict [("x", VInt 1)]).
  Proof.
    refine (C38_field_kept_partial P W0 [] 20 TagExternal (TClass "Plain") "Plain" Plain MDict data None None _ ff "foo" "Foo" Foo [TPrim PInt; TVar "U"]
      MDict inner fv "v" "T" _ eq_refl _ (dl Plain _) (oe_f Plain _) eq_refl eq_refl (sole Plain _) eq_refl (dl Foo _) oe_v eq_refl eq_refl eq_refl eq_refl _); simpl; auto.
    exists "Plain". repeat split.
  Qed.
  Example kept_applies : exists attrs, c_post Foo (VObj "Foo" attrs) = Ok (VObj "Foo" [("s", VInt 3); ("v", dict [("x", VInt 1)])]) /\
    slookup "v" attrs = Some (dict [("x", VInt 1)]).
  Proof.
    refine (C38_kept_partial P W0 [] 20 TagExternal (TGen "Foo" [TClass "A"]) Foo MDict inner None None _ fv "v" "T" _ (target "Foo" Foo eq_refl eq_refl) (dl Foo _) oe_v eq_refl eq_refl eq_refl _); simpl; auto.
  Qed.
End GenEx.

Print Assumptions C38_kept_partial.
Print Assumptions C38_nested_partial.
Print Assumptions C38_field_kept_partial.
