(** Globally registered class serializers and deserializers, and the ones given to a class (C35, C51). *)
From Coq Require Import String List ZArith Bool Ascii Lia.
From Verif Require Import Base PyVal PyType Program Compat Syntax SeRender DeRender Eval Facts Mono Spec Cover DeRT Depend PropsSe PropsDe Ex Decide.
Import ListNotations.
Open Scope string_scope.
Open Scope list_scope.

(** [s] is the last element of [l] for which [h] holds. *)
Definition last_such {A} (h : A -> Prop) (l : list A) (s : A) : Prop :=
  exists l1 l2, l = l1 ++ s :: l2 /\ h s /\ Forall (fun x => ~ h x) l2.
Definition first_such {A} (h : A -> Prop) (l : list A) (s : A) : Prop :=
  exists l1 l2, l = l1 ++ s :: l2 /\ h s /\ Forall (fun x => ~ h x) l1.

(** A class serializer is declared for types ([cs_types]); Python compares types with ==. *)
Definition handles (t : pytype) (s : clsser) : Prop := exists u, In u (cs_types s) /\ ty_eqb u t = true.
Definition de_handles (t : pytype) (s : clsde) : Prop := exists u, In u (cd_types s) /\ ty_eqb u t = true.

(** The serializers that count for a class: the global ones in order of registration, then its own. *)
Definition sers_of (P : program) (d : classdef) : list clsser := p_sers P ++ match c_class_ser d with Some s => [s] | None => [] end.
Definition des_of (P : program) (d : classdef) : list clsde := p_des P ++ match c_class_de d with Some s => [s] | None => [] end.

Lemma ty_mem_ex t l : ty_mem t l = true <-> exists u, In u l /\ ty_eqb u t = true.
Proof.
  unfold ty_mem. rewrite existsb_exists. reflexivity.
Qed.

Lemma last_index_spec {A} (p : A -> bool) l1 s l2 : p s = true -> Forall (fun x => p x = false) l2 ->
  forall n acc, last_index p n (l1 ++ s :: l2) acc = Some (n + List.length l1).
Proof.
  intros Hs F. induction l1 as [|x l1 IH]; intros n acc; cbn [app last_index List.length].
  - rewrite Hs. rewrite Nat.add_0_r. generalize (S n) as k. induction F as [|y l2 Hy F IH]; intros k; cbn [last_index]; [reflexivity|]. rewrite Hy. apply IH.
  - rewrite IH. f_equal. lia.
Qed.

Lemma nth_opt_app {A} (l1 : list A) s l2 : nth_opt (l1 ++ s :: l2) (List.length l1) = Some s.
Proof. induction l1; [reflexivity|]. exact IHl1. Qed.

Section Global.
  Variables (P : program) (W : world) (K : list (tagging * pytype)).
  Notation run := (run P W K).
  Notation es := (enum_scalar P).

  Lemma find_last d t s : last_such (handles t) (sers_of P d) s ->
    exists i, find_ser P (c_class_ser d) t = Some i /\ nth_opt (class_sers P (c_class_ser d)) i = Some s.
  Proof.
    intros (l1 & l2 & E & H & F). unfold find_ser, class_sers. unfold sers_of in E. rewrite E. exists (List.length l1).
    split; [|apply nth_opt_app]. rewrite last_index_spec; [reflexivity|now apply ty_mem_ex|].
    eapply Forall_impl; [|exact F]. intros x N. destruct (ty_mem t (cs_types x)) eqn:T; [|reflexivity]. elim N. now apply ty_mem_ex.
  Qed.
  Lemma find_last_de d t s : last_such (de_handles t) (des_of P d) s ->
    exists i, find_de P (c_class_de d) t = Some i /\ nth_opt (class_des P (c_class_de d)) i = Some s.
  Proof.
    intros (l1 & l2 & E & H & F). unfold find_de, class_des. unfold des_of in E. rewrite E. exists (List.length l1).
    split; [|apply nth_opt_app]. rewrite last_index_spec; [reflexivity|now apply ty_mem_ex|].
    eapply Forall_impl; [|exact F]. intros x N. destruct (ty_mem t (cd_types x)) eqn:T; [|reflexivity]. elim N. now apply ty_mem_ex.
  Qed.

  (** A field without serializer of its own is written by the last of the serializers for its type. *)
  Theorem C35_field_partial n c d attrs cc ro rc skip x f k s :
    get_class P c = Some d -> shallow d -> NoDup (map (wire_name W d) (declared d)) ->
    first_ser P (VObj c attrs) = None -> plain_arg cc ->
    to_dict P W K n (VObj c attrs) cc ro rc skip = Ok x ->
    In f (declared d) -> no_rule d f -> wire_name W d f = Some k ->
    f_serializer f = None -> last_such (handles (f_type f)) (sers_of P d) s ->
    exists kvs a v, x = VMap MDict kvs /\ getattr P (VObj c attrs) (f_name f) = Ok a /\ cs_fn s a = Ok v /\
      (skip = false \/ v <> VNone -> skey P kvs k = Some v).
  Proof.
    intros Hd FD ND FS PA H Hf NR WN HS HL.
    destruct (se_ok_S _ _ _ _ _ _ H) as [m ->]. pose proof H as H'. unfold to_dict in H'. apply (to_obj_inv _ _ _ _ _ d) in H'; auto.
    destruct (se_ok_S _ _ _ _ _ _ H') as [m' ->]. clear H'.
    destruct (C05_skip_predicates_partial P W K m' c d attrs cc ro rc skip x f k Hd FD ND FS PA H Hf WN) as (kvs & v & -> & S & C).
    assert (Hf' : In f (c_fields d)) by (now apply filter_In in Hf).
    assert (G : exists a, getattr P (VObj c attrs) (f_name f) = Ok a /\ cs_fn s a = Ok v).
    { unfold ser_value in S. inv_bind S. pose proof FD as (_ & _ & _ & FL). rewrite se_field_own in S by now apply FL.
      destruct (find_last d (f_type f) s HL) as (i & I1 & I2). change (r_class_ser (se_cfg d true)) with (c_class_ser d) in S.
      rewrite I1, HS in S. cbn [bind mapM eval obj_var slookup] in S. change (String.eqb "obj" "obj") with true in S. cbn [of_option bind] in S.
      destruct (getattr P (VObj c attrs) (f_name f)) as [y| |]; cbn [bind] in S; try discriminate. exists y. split; [reflexivity|].
      change (c_class_ser (x_cls (se_ctx P d a (flag ro (c_reuse d)) (flag rc (c_conv d)) skip))) with (c_class_ser d) in S.
      rewrite I2 in S. cbn [of_option bind] in S. destruct (cs_fn s y); cbn [bind] in S; try discriminate. exact S. }
    destruct G as (a & A & G). exists kvs, a, v. repeat split; auto.
    rewrite no_rule_drop in C by exact NR. intros [->|NN]; [exact C|]. destruct v; try contradiction; now rewrite andb_false_r in C.
  Qed.

  (** The object passed to to_dict is written by the first of the serializers for its class. *)
  Theorem C35_top_partial n c attrs cc ro rc skip s :
    plain_arg cc -> first_such (fun s => In (TClass c) (cs_types s)) (p_sers P) s ->
    to_dict P W K (S n) (VObj c attrs) cc ro rc skip = catch (cs_fn s (VObj c attrs)) (fun e => Raise (XSerde (MWrap e))).
  Proof.
    intros PA (l1 & l2 & E & H & F).
    assert (TY : forall u, type_is (VObj c attrs) u = true -> u = TClass c).
    { intros u. destruct u; cbn [type_is]; try discriminate. intros T. apply String.eqb_eq in T. now subst. }
    assert (FS : first_ser P (VObj c attrs) = Some s).
    { unfold first_ser. rewrite E in *. clear E. induction l1 as [|y l1 IH]; cbn [app find].
      - assert (T : existsb (type_is (VObj c attrs)) (cs_types s) = true).
        { apply existsb_exists. exists (TClass c). split; [exact H|]. cbn [type_is]. apply String.eqb_refl. }
        now rewrite T.
      - inversion F as [|? ? N1 N2]; subst. destruct (existsb (type_is (VObj c attrs)) (cs_types y)) eqn:T.
        + exfalso. apply N1. apply existsb_exists in T as [u [Hu T]]. rewrite <- (TY u T). exact Hu.
        + now apply IH. }
    unfold to_dict. cbn [Eval.run step]. unfold to_obj_body. rewrite FS. destruct cc as [[tg t]|]; [|reflexivity].
    cbn [option_map fst snd]. cbn [plain_arg] in PA. destruct (unalias t); try reflexivity. discriminate.
  Qed.

  (** A field without deserializer of its own is read by the last of the deserializers for its type, which gets the
      type and the entry of the field. *)
  Theorem C51_field n tg t d m kvs ro dn o f s k x :
    targets P t d -> dictlike d -> names_ok P d ->
    In f (c_fields d) -> read f = true -> f_flatten f = false -> f_alias f = [] ->
    f_deserializer f = None -> last_such (de_handles (f_type f)) (des_of P d) s ->
    (needed (f_type f) = true \/ exists p, f_type f = TPrim p) ->
    wire_name W d f = Some k -> skey P kvs k = Some x ->
    from_dict P W K n (tg, t) (VMap m kvs) ro dn = Ok o ->
    exists attrs v, c_post d (VObj (c_id d) attrs) = Ok o /\ slookup (f_name f) attrs = Some v /\ cd_fn s (f_type f) x = Ok v.
  Proof.
    intros HT HD NO Hf R FL AL FD HL NT WN SK H.
    destruct (from_dict_object _ _ _ _ _ _ _ _ _ _ _ HT HD (map_not_inst _ _ _ _ _ HT) H) as (n' & known & attrs & _ & _ & A & _ & B & _).
    destruct (B f Hf R) as (v & V1 & V2 & _). exists attrs, v. split; [exact A|]. split; [exact V1|].
    apply takes_plain in V2; [|exact FL]. unfold de_value in V2. inv_bind V2. rename a into e.
    destruct (find_last_de d (f_type f) s HL) as (i & I1 & I2).
    assert (RT : de_ty P W (de_cfg d true) (fieldarg d f data_var) (f_type f) = Ok e).
    { unfold de_render in Hb. cbn [fieldarg field_arg da_deser] in Hb. rewrite FD in Hb. change (d_class_de (de_cfg d true)) with (c_class_de d) in Hb.
      rewrite I1 in Hb. destruct (d_legacy (de_cfg d true)); exact Hb. }
    clear Hb. rewrite de_ty_eq in RT. change (d_class_de (de_cfg d true)) with (c_class_de d) in RT. rewrite I1 in RT.
    cbn [fieldarg field_arg da_deser] in RT. rewrite FD in RT. inv_bind RT. rename a into dat.
    assert (RS : resolve P (de_globals P d) (f_type f) = Ok (f_type f)).
    { destruct NT as [NT|[p ->]]; [|reflexivity]. apply de_lookup; auto. eapply iter_types_field; eauto; [|constructor].
      unfold read in R. destruct (f_skip f); [|reflexivity]. now rewrite andb_false_r in R. }
    assert (EF : eval P W (run n') (top_ctx P d t ro dn) [("data", VMap m kvs)] (EClsDe i (f_type f) dat) = cd_fn s (f_type f) x).
    { cbn [eval]. change (x_g (top_ctx P d t ro dn)) with (de_globals P d). rewrite RS. cbn [bind].
      unfold da_data in Hb. cbn [fieldarg field_arg da_inner da_iter] in Hb. inv_bind Hb. injection Hb as <-.
      apply key_wire in Hb0. rewrite WN in Hb0. injection Hb0 as <-. cbn [field_arg da_var].
      assert (X : eval P W (run n') (top_ctx P d t ro dn) [("data", VMap m kvs)] (if has_none_arg (f_type f) then EGet data_var k else EKey data_var k) = Ok x).
      { destruct (has_none_arg (f_type f)); [rewrite eval_get, SK|rewrite eval_key; unfold skey in SK; cbn [getitem]; rewrite SK]; reflexivity. }
      rewrite X. cbn [bind]. change (c_class_de (x_cls (top_ctx P d t ro dn))) with (c_class_de d). rewrite I2. reflexivity. }
    destruct (f_default f) as [df|] eqn:DF.
    - assert (DD : da_default (fieldarg d f data_var) = true) by (cbn; now rewrite DF).
      destruct (default_inv P W (fieldarg d f data_var) _ _ _ eq_refl FL DD RT) as (y & Y & ->).
      assert (EX := eval_exists P W d f y (run n') (top_ctx P d t ro dn) m kvs (or_introl AL) Y).
      unfold key_names in EX. rewrite WN, AL in EX. cbn [first_key] in EX. rewrite SK in EX. cbn [has_some] in EX.
      rewrite (eval_guarded _ _ _ _ _ _ _ _ _ _ (G_once _ _ _) EX) in V2. now rewrite EF in V2.
    - unfold de_default in RT. cbn [fieldarg field_arg da_default] in RT. rewrite DF in RT. cbn [has_some andb] in RT. injection RT as <-.
      now rewrite EF in V2.
  Qed.

  (** At top level it is the first one. *)
  Theorem C51_top n tg c o ro dn s : type_is o (TClass c) = false ->
    first_such (fun s => In (TClass c) (cd_types s)) (p_des P) s ->
    from_dict P W K (S n) (tg, TClass c) o ro dn =
      catch (cd_fn s (TClass c) o) (fun e => match e with XUser e => Raise e | _ => Raise (XSerde (MWrap e)) end).
  Proof.
    intros NI (l1 & l2 & E & H & F).
    assert (FS : first_de P (TClass c) = Some s).
    { unfold first_de. rewrite E. clear E. induction l1 as [|y l1 IH]; cbn [app find].
      - assert (T : ty_mem (TClass c) (cd_types s) = true) by (apply ty_mem_ex; exists (TClass c); split; [exact H|cbn; apply String.eqb_refl]).
        now rewrite T.
      - inversion F as [|? ? N1 N2]; subst. destruct (ty_mem (TClass c) (cd_types y)) eqn:T; [|now apply IH].
        exfalso. apply N1. apply ty_mem_ex in T as [u [Hu T]]. rewrite (ty_eqb_needed u (TClass c) eq_refl T) in Hu. exact Hu. }
    unfold from_dict. cbn [Eval.run step unalias is_union andb]. rewrite NI. unfold from_obj_body. rewrite FS. reflexivity.
  Qed.
End Global.

Module GlobalEx.
  (** Two serializers and deserializers for int are registered globally, one for A given to class B. *)
  Definition plus (k : Z) (v : pyval) : res pyval := match v with VInt z => Ok (VInt (z + k)) | _ => Raise XType end.
  Definition const (s : string) (v : pyval) : res pyval := Ok (VStr s).
  Definition obj (z : Z) (v : pyval) : res pyval := Ok (VObj "A" [("n", VInt z)]).
  Definition A := cls "A" [fld "n" TInt].
  Definition fi := with_names (Some "eye") [] (fld "i" TInt).
  Definition fa := fld "a" (TClass "A").
  Definition B : classdef :=
    {| c_id := "B"; c_name := "B"; c_fields := [fi; fa];
       c_mro := []; c_rename_all := None; c_reuse := true; c_conv := false;
       c_skip_if_default := false; c_skip_if_none := false; c_serializer := None; c_deserializer := None;
       c_tagging := TagExternal; c_check := TcStrict; c_ser_class_var := false; c_class_vars := [];
       c_transparent := false; c_class_ser := Some (mkClsser [TClass "A"] (const "own"));
       c_class_de := Some (mkClsde [TClass "A"] (fun _ => obj 3)); c_deny := false;
       c_tvars := None; c_post := fun o => Ok o; c_hashable := false |}.
  Definition s1 := mkClsser [TInt; TClass "A"] (plus 1).
  Definition s2 := mkClsser [TClass "A"] (const "second").
  Definition s3 := mkClsser [TInt] (plus 3).
  Definition d1 := mkClsde [TClass "A"; TInt] (fun _ => obj 1).
  Definition d2 := mkClsde [TInt] (fun _ => plus 2).
  Definition d3 := mkClsde [TClass "A"] (fun _ => obj 3).
  Definition P := mkProgram [A; B] [] [s1; s2; s3] [d1; d2; d3] (fun _ _ => false).
  Definition b (z : Z) := VObj "B" [("i", VInt z); ("a", VObj "A" [("n", VInt 0)])].

  Lemma sh : shallow B.
  Proof.
    repeat split; try reflexivity.
    - repeat constructor; simpl; intuition discriminate.
    - intros f [<-|[<-|[]]]; now left.
  Qed.
  Example run1 z : to_dict P W0 [] 9 (b z) None None None false = Ok (dict [("eye", VInt (z + 3)); ("a", VStr "own")]).
  Proof. vm_compute. destruct z; reflexivity. Qed.

  Lemma last_i : last_such (handles TInt) (sers_of P B) s3.
  Proof.
    exists [s1; s2], [mkClsser [TClass "A"] (const "own")]. split; [reflexivity|]. split; [exists TInt; split; [now left|reflexivity]|].
    constructor; [|constructor]. intros [u [[<-|[]] E]]. discriminate.
  Qed.
  Example C35_field_ex z : exists kvs a v, dict [("eye", VInt (z + 3)); ("a", VStr "own")] = VMap MDict kvs /\
    getattr P (b z) "i" = Ok a /\ plus 3 a = Ok v /\ (false = false \/ v <> VNone -> skey P kvs "eye" = Some v).
  Proof.
    apply (C35_field_partial P W0 [] 9 "B" B _ None None None false _ fi "eye" s3 eq_refl sh); try reflexivity.
    - constructor; [intros [E|[]]; discriminate|constructor; [intros []|constructor]].
    - now left.
    - repeat split.
    - exact last_i.
  Qed.
  Example C35_top_ex z : to_dict P W0 [] 1 (VObj "A" [("n", VInt z)]) None None None false = Raise (XSerde (MWrap XType)).
  Proof.
    rewrite (C35_top_partial P W0 [] 0 "A" _ None None None false s1 I); [reflexivity|].
    exists [], [s2; s3]. split; [reflexivity|]. split; [simpl; auto|constructor].
  Qed.

  Example run2 z : from_dict P W0 [] 9 (TagExternal, TClass "B") (dict [("eye", VInt z); ("a", VStr "x")]) None None
    = Ok (VObj "B" [("i", VInt (z + 2)); ("a", VObj "A" [("n", VInt 3)])]).
  Proof. vm_compute. destruct z; reflexivity. Qed.
  Lemma target : targets P (TClass "B") B.
  Proof. exists "B". repeat split. Qed.
  Lemma dl : dictlike B.
  Proof. split; [reflexivity|]. repeat constructor; simpl; intuition discriminate. Qed.
  Lemma nm : names_ok P B.
  Proof. apply (names_okb_ok P B [TClass "B"; TInt; TClass "A"]); reflexivity. Qed.
  Lemma last_d : last_such (de_handles TInt) (des_of P B) d2.
  Proof.
    exists [d1], [d3; mkClsde [TClass "A"] (fun _ => obj 3)]. split; [reflexivity|]. split; [exists TInt; split; [now left|reflexivity]|].
    constructor; [|constructor; [|constructor]]; intros [u [[<-|[]] E]]; discriminate.
  Qed.
  Example C51_field_ex z : exists attrs v, Ok (VObj "B" attrs) = Ok (VObj "B" [("i", VInt (z + 2)); ("a", VObj "A" [("n", VInt 3)])]) /\
    slookup "i" attrs = Some v /\ plus 2 (VInt z) = Ok v.
  Proof.
    apply (C51_field P W0 [] 9 TagExternal (TClass "B") B MDict [(VStr "eye", VInt z); (VStr "a", VStr "x")] None None _ fi d2 "eye" (VInt z) target dl nm); try reflexivity.
    - now left.
    - exact last_d.
    - right. now exists PInt.
  Qed.
  Example C51_top_ex s : from_dict P W0 [] 1 (TagExternal, TClass "A") (VStr s) None None = Ok (VObj "A" [("n", VInt 1)]).
  Proof.
    rewrite (C51_top P W0 [] 0 TagExternal "A" (VStr s) None None d1 eq_refl); [reflexivity|].
    exists [], [d2; d3]. split; [reflexivity|]. split; [simpl; auto|constructor].
  Qed.
End GlobalEx.

Print Assumptions C35_field_partial.
Print Assumptions C35_top_partial.
Print Assumptions C51_field.
Print Assumptions C51_top.
