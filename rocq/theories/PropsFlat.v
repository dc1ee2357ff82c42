(** C13: classes with flattened dataclass fields.  The theorems about round trips (PropsTrip), about the serialized form and about
    accepted data (PropsWire) cover such classes as far as [flat_ok] (Spec.v) allows; here is what flattening adds. *)
From Coq Require Import String List Bool Arith ZArith Lia.
From Verif Require Import Base PyVal PyType Program Compat Syntax SeRender DeRender Eval Formats Facts Mono Ex Spec Cover Walk Cache SeRT DeRT
  SpecFmt Decide Transport RoundTrip PropsTrip PropsWire.
Import ListNotations.
Open Scope string_scope.
Open Scope list_scope.

Lemma concat_single {A} (l : list A) : concat (map (fun a => [a]) l) = l.
Proof. induction l; simpl; congruence. Qed.
Lemma F3_split {A B C} (R : A -> B -> list C -> Prop) la lb lc a b : Forall3 R la lb lc -> In (a, b) (combine la lb) ->
  exists c l1 l2, R a b c /\ concat lc = (l1 ++ c ++ l2)%list.
Proof.
  induction 1 as [|a' b' c' la lb lc Hr F IH]; simpl; [contradiction|]. intros [E|H].
  - injection E as -> ->. exists c', [], (concat lc). auto.
  - destruct (IH H) as [c [l1 [l2 [H1 H2]]]]. exists c, (c' ++ l1)%list, l2. split; auto. now rewrite H2, app_assoc.
Qed.

Section Flat.
  Variables (P : program) (W : world) (K : list (tagging * pytype)).
  Hypothesis NoSers : p_sers P = [].
  Hypothesis NoDes : p_des P = [].

  (** C13.  The entries written for the object of a flattened field are the entries the object is written with by itself, at the
      level of the parent, and from_dict restores the parent.  [lu]: the child, [l1 ++ lu ++ l2]: the parent.
      Partial: [flat_ok] (part of [wt]) wants a flattened class without default, no Optional, no flattened field in the child, and the
      child's names, tagging and deny_unknown_fields to agree with the parent's.  Refuted.v shows what goes wrong with Optional
      ([C13_optional_refuted], [C13_optional_none_refuted]) and with another rename_all ([C13_rename_all_refuted]). *)
  Theorem C13_flat_partial c d attrs f nv r k cc cc' ro' tg :
    get_class P c = Some d -> c_transparent d = false ->
    wt P W false (fun _ => True) (fun v => plain v = true) (VObj c attrs) (TClass c) ->
    In (f, nv) (combine (c_fields d) attrs) -> f_flatten f = true ->
    no_union cc -> no_union cc' -> (r = true -> flag ro' (c_reuse d) = true) ->
    exists lu l1 l2 N, forall n, N <= n ->
      to_dict P W K n (snd nv) cc' (Some r) (Some k) false = Ok (VMap MDict lu) /\
      to_dict P W K n (VObj c attrs) cc (Some r) (Some k) false = Ok (VMap MDict (l1 ++ lu ++ l2)) /\
      from_dict P W K n (tg, TClass c) (VMap MDict (l1 ++ lu ++ l2)) ro' None = Ok (VObj c attrs).
  Proof.
    intros Hd Ht HW Hf Hfl NU NU' HR.
    destruct (C01_dict_round_trip P W K NoSers NoDes c d attrs (Some r) (Some k) false cc ro' tg Hd HW NU HR) as [x [N H]].
    assert (HW' : wt P W false (fun _ => True) (fun _ => True) (VObj c attrs) (TClass c)) by (eapply wt_mono; [..|apply le_n|exact HW]; auto).
    assert (X : Wire P W r k false true TagExternal (VObj c attrs) (TClass c) x).
    { apply (proj2 (C49_to_dict P W K NoSers c d attrs (Some r) (Some k) false cc TagExternal x Hd HW' NU)). exists N. intros n Hn. now apply H. }
    apply (wire_obj_inv P W r k false TagExternal c attrs x d Hd Ht) in X as [outs [-> FO]].
    apply wt_obj_inv in HW' as [d0 [Hd0 [F [_ [FF _]]]]]. rewrite Hd in Hd0. injection Hd0 as <-.
    pose proof F as (_ & _ & _ & _ & _ & _ & K7 & _). rewrite Forall_forall in K7.
    destruct (K7 f (in_combine_l _ _ _ _ Hf)) as [_ FL].
    destruct (FL Hfl) as (c1 & d1 & G1 & G2 & _ & Hw & _ & _ & G7 & G8 & _ & _ & _ & KF & _). rewrite Forall_forall in KF.
    pose proof (F2_combine _ _ _ _ _ FF Hf) as [_ [WV _]]. rewrite Hw, G1 in WV. specialize (WV eq_refl).
    destruct (F3_split _ _ _ _ _ _ FO Hf) as [out [l1 [l2 [RO E]]]]. cbv beta in RO.
    destruct RO as [[Hw' _]|[[_ [E' _]]|[_ [d' [c' [at' [lu [Hk [Ev [WL RO]]]]]]]]]]; try congruence.
    assert (d' = d1) by (unfold kid in Hk; rewrite Hfl, G1 in Hk; congruence). subst d'.
    destruct RO as [[? _]|[_ ->]]; [discriminate|]. rewrite Ev in WV |- *. assert (c' = c1) by (inversion WV; auto). subst c'.
    assert (XU : Wire P W r k false true TagExternal (VObj c1 at') (TClass c1) (VMap MDict lu)).
    { rewrite <- (concat_single lu). apply (W_obj P W r k false TagExternal c1 d1); auto.
      assert (KF' : forall g, In g (c_fields d1) -> written g = true /\ f_flatten g = false /\ no_skip P d1 g /\ f_serializer g = None)
        by (intros g Hg; destruct (KF g Hg) as (_ & ? & ? & _ & _ & _ & _ & _ & ? & ?); auto).
      clear -WL KF' G8. induction WL as [|g nv' kv fs la ll [k' [x [Hk [X ->]]]] WL IH]; [constructor|]. cbn [map]. constructor.
      - destruct (KF' g (or_introl eq_refl)) as [Hw [Hfl [NS NF]]]. right. left. split; auto. split; auto. exists k', x. split; auto. rewrite G8. split; auto. rewrite (NS x). auto.
      - apply IH. intros; apply KF'; now right. }
    apply (proj1 (C49_to_dict P W K NoSers c1 d1 at' (Some r) (Some k) false cc' TagExternal (VMap MDict lu) G2 WV NU')) in XU as [M HM].
    exists lu, l1, l2, (Nat.max N M). intros n Hn. rewrite E in H. destruct (H n ltac:(lia)) as [H1 H2]. split; [apply HM; lia|auto].
  Qed.
End Flat.

Module FlatEx.
  Import TripEx.
  (** Parent and child use pascalcase and reject unknown keys; the flattened field stands between two others; the child has a default
      and a tagged union of classes; the parent is recursive. *)
  Definition kidc := clsx "Kid" [fld "name" TString; with_default (VInt 3) (fld "num" (TOpt TInt)); fld "shape" (TUnion [TClass "Leaf"; TClass "Other"])]
    (Some "pascalcase") (TagAdjacent "t" "c") TcStrict false true.
  Definition par := clsx "Par" [fld "id" TInt; flat (fld "kid" (TClass "Kid")); fld "more" (TList LList (TClass "Par"))]
    (Some "pascalcase") (TagAdjacent "t" "c") TcStrict false true.
  Definition q := prog [leaf; other; kidc; par] [].
  Lemma fragq : forall d, In d (p_classes q) -> frag_class q w d.
  Proof. apply (frag_classesb_ok q w 4). vm_compute. reflexivity. Qed.
  Definition kid1 := VObj "Kid" [("name", VStr "k"); ("num", VNone); ("shape", VObj "Other" [("n", VInt 1); ("m", VInt 2)])].
  Definition node (i : Z) (l : list pyval) := VObj "Par" [("id", VInt i); ("kid", kid1); ("more", vlist l)].
  Definition obj := node 1 [node 2 []].
  Example obj_wt : wt q w false (fun _ => True) (fun v => plain v = true) obj (TClass "Par").
  Proof. apply (wtb_ok q w false _ _ plain fragq (fun _ _ => I) (fun _ H => H) 20). vm_compute. reflexivity. Qed.
  Example obj_flat : exists lu l1 l2 N, forall n, N <= n ->
      to_dict q w [] n kid1 None (Some true) (Some false) false = Ok (VMap MDict lu) /\
      to_dict q w [] n obj None (Some true) (Some false) false = Ok (VMap MDict (l1 ++ lu ++ l2)) /\
      from_dict q w [] n (TagExternal, TClass "Par") (VMap MDict (l1 ++ lu ++ l2)) (Some true) None = Ok obj.
  Proof.
    apply (C13_flat_partial q w [] eq_refl eq_refl "Par" par _ (flat (fld "kid" (TClass "Kid"))) ("kid", kid1)); auto; try exact I; [apply obj_wt|].
    right. now left.
  Qed.
  Example obj_form : to_dict q w [] 20 (node 2 []) None None None false =
    Ok (dict [("Id", VInt 2); ("Name", VStr "k"); ("Num", VNone);
              ("Shape", dict [("c", dict [("n", VInt 1); ("m", VInt 2)]); ("t", VStr "Other")]); ("More", vlist [])]).
  Proof. vm_compute. reflexivity. Qed.
  (** the general theorems apply as well *)
  Example obj_data : exists x N, forall n, N <= n -> to_dict q w [] n obj None None None false = Ok x /\
      from_dict q w [] n (TagExternal, TClass "Par") x None None = Ok obj.
  Proof. apply (C01_dict_round_trip q w [] eq_refl eq_refl "Par" par); auto; [apply obj_wt|exact I]. Qed.
End FlatEx.

Print Assumptions C13_flat_partial.
