(** Unions as class argument: to_dict(v, cls=A | B) and from_dict(A | B, …) (C58, C46). *)
From Coq Require Import String List ZArith Bool Lia Permutation.
From Verif Require Import Base PyVal PyType Program Compat Syntax SeRender DeRender Eval Formats Facts Mono Ex Spec Cover SeRT DeRT SpecFmt Transport RoundTrip Decide PropsTrip PropsUnion.
Import ListNotations.
Open Scope string_scope.
Open Scope list_scope.

Section UnionTrip.
  Variables (P : program) (W : world) (K : list (tagging * pytype)).
  Hypothesis NoSers : p_sers P = [].
  Hypothesis NoDes : p_des P = [].

  Lemma union_tyok tg co l : is_opt (TUnion l) = false -> union_ok P W tg l -> tyok P W tg co (TUnion l).
  Proof.
    intros O U. cbn [tyok]. destruct l as [|a [|b [|]]]; auto; destruct b; auto. cbn [is_opt] in O. apply negb_false_iff in O. now rewrite O.
  Qed.

  (** The wrapper class of a union is written without options and read with reuse_instances=True. *)
  Lemma union_trip ord txt seq (Q : classdef -> Prop) tg l v nm ro rc skip ro' dn :
    (forall h, dn = Some h -> forall f, h (VFloat f) = Ok (VFloat f)) ->
    (txt = true -> forall z, w_int_of_str W (z_str z) = Some z) ->
    (forall d, Q d -> class_fmt ord txt P (has_some dn) d) ->
    fmt_ok txt P (has_some dn) (TUnion l) ->
    own_union P K tg l -> union_ok P W tg l ->
    wt P W false Q (survives ord txt seq) v (TUnion l) ->
    exists x, ev (fun n => run P W K n (QToObj v nm ro rc skip (Some (tg, TUnion l))) = Ok x) /\
      forall y, Norm ord txt seq x y -> exists v', same ord v v' /\ ev (fun n => run P W K n (QFromObj (tg, TUnion l) y nm ro' dn) = Ok v').
  Proof.
    intros HF HI HQ FM U UO HW. pose proof U as (O & FR & SC & _). pose proof (own_cov P K tg l U) as CV.
    assert (SD : sdok P (udef P tg l)) by (split; [exact SC|eexists; apply udef_fns]).
    destruct (se_good P W K NoSers false false false false Q (survives ord txt seq) _ v (le_n _) (TUnion l) (udef P tg l) true false
                (union_tyok _ _ _ O UO) CV SD HW) as [x [X1 X2]].
    exists x. split.
    - assert (E : se_ty P (union_se_cfg (udef P tg l)) false obj_var (TUnion l) = Ok (EUnionSe (union_func_name P "union_se" l) obj_var)).
      { rewrite (se_ty_simple P NoSers _ true false) by apply union_cfg_plain. unfold SeRT.se_simple. rewrite opt_arg_none by exact O. reflexivity. }
      specialize (X2 _ _ _ (union_cfg_plain (udef P tg l)) E). eapply ev_mono; [exact (ev_S _ X2)|]. cbv beta. intros [|n] X; [contradiction|].
      specialize (X [] [("obj", v)] eq_refl). 
      change (run P W K n (QUnionSe (udef P tg l) (union_func_name P "union_se" l) v false false false) = Ok x) in X.
      rewrite to_union_eq by exact U. rewrite X. reflexivity.
    - intros y N.
      destruct (transport P W ord txt seq false false false false Q true (has_some dn) HI) with (n := vsize v) (v := v) (t := TUnion l) (nm := true) (tg := tg) (co := false) (x := x) (y := y)
        as [v' [A S]]; auto; try discriminate.
      { apply union_tyok; auto. }
      exists v'. split; auto.
      set (a := inner_arg union_de_arg "data" (EVar "data")).
      assert (AO : arg_ok P W (udef P tg l) a (TUnion l)) by (eapply arg_ok_inner; [apply (union_arg_ok P W (udef P tg l) (TUnion l))|reflexivity]).
      assert (E : de_ty P W (union_de_cfg (udef P tg l)) a (TUnion l) = Ok (EUnionDe (union_func_name P "union_de" l) (EVar "data"))).
      { rewrite (de_ty_core P W NoDes (union_de_cfg (udef P tg l)) true false); [|apply union_cfg_plain_de|reflexivity|reflexivity|discriminate|discriminate].
        unfold de_core. rewrite opt_arg_none by exact O. reflexivity. }
      pose proof (de_good P W K NoDes true dn HF _ v' (le_n _) (TUnion l) (udef P tg l) true false y (union_tyok _ _ _ O UO) CV SC A
                    _ _ _ (union_cfg_plain_de (udef P tg l)) AO E) as G.
      eapply ev_mono; [exact (ev_S _ G)|]. cbv beta. intros [|n] X; [contradiction|]. rewrite from_union_eq by assumption.
      apply (X None None None [("data", y)]). split; reflexivity.
  Qed.

  (** C58.  from_dict(U, to_dict(v, U)) is v, whatever the options. *)
  Theorem C58_dict_round_trip tg l v ro rc skip ro' :
    own_union P K tg l -> union_ok P W tg l ->
    wt P W false (fun _ => True) (fun v => plain v = true) v (TUnion l) ->
    exists x N, forall n, N <= n ->
      to_dict P W K n v (Some (tg, TUnion l)) ro rc skip = Ok x /\
      from_dict P W K n (tg, TUnion l) x ro' None = Ok v.
  Proof.
    intros U UO HW.
    destruct (union_trip false false None (fun _ => True) tg l v true ro rc skip ro' None) as [x [X1 X2]]; auto; try discriminate.
    - intros d' _. apply class_fmt_false.
    - intros s _. destruct s; auto; [destruct p; auto|discriminate..].
    - eapply wt_mono; [..|apply le_n|exact HW]; auto. apply plain_survives.
    - destruct (X2 x) as [v' [S X3]]; [now constructor|]. apply same_false with (1 := le_n _) in S. subst v'.
      destruct (ev_and _ _ X1 X3) as [N HN]. exists x, N. exact HN.
  Qed.

  Lemma union_format ord txt seq J (Q : classdef -> Prop) tg l v nm skip dn :
    codec_law ord txt seq J ->
    (forall h, dn = Some h -> forall f, h (VFloat f) = Ok (VFloat f)) ->
    (txt = true -> forall z, w_int_of_str W (z_str z) = Some z) ->
    (forall d, Q d -> class_fmt ord txt P (has_some dn) d) ->
    fmt_ok txt P (has_some dn) (TUnion l) ->
    own_union P K tg l -> union_ok P W tg l ->
    wt P W false Q (survives ord txt seq) v (TUnion l) ->
    exists x v' N, same ord v v' /\ forall n, N <= n ->
      run P W K n (QToObj v nm (Some false) (Some true) skip (Some (tg, TUnion l))) = Ok x /\
      forall s, dumps J x = Ok s ->
        (y <- loads J s ;; run P W K n (QFromObj (tg, TUnion l) y nm (Some false) dn)) = Ok v'.
  Proof.
    intros HJ HF HI HQ FM U UO HW.
    destruct (union_trip ord txt seq Q tg l v nm (Some false) (Some true) skip (Some false) dn) as [x [X1 X2]]; auto.
    exists x. destruct (dumps J x) as [s| |] eqn:D.
    - destruct (HJ _ _ D) as [y [L N]]. destruct (X2 y N) as [v' [S X3]]. exists v'.
      destruct (ev_and _ _ X1 X3) as [m HN]. exists m. split; auto. intros n Hn. destruct (HN n Hn) as [A B]. split; auto.
      intros s' E. injection E as <-. rewrite L. exact B.
    - destruct X1 as [m X1]. exists v, m. split; [constructor|]. intros n Hn. split; auto. discriminate.
    - destruct X1 as [m X1]. exists v, m. split; [constructor|]. intros n Hn. split; auto. discriminate.
  Qed.

  (** Through the formats.  ([dumps] fails for sets: to_json does not turn the sets of a union into lists.) *)
  Theorem C58_json_round_trip J tg l v skip coerce :
    codec_law false true (Some KList) J ->
    (forall z, w_int_of_str W (z_str z) = Some z) ->
    own_union P K tg l -> union_ok P W tg l -> fmt_ok true P coerce (TUnion l) ->
    wt P W false (class_fmt false true P coerce) (survives false true (Some KList)) v (TUnion l) ->
    exists x N, forall n, N <= n ->
      to_json P W K J n v (Some (tg, TUnion l)) skip = dumps J x /\
      forall s, dumps J x = Ok s -> from_json P W K J n (tg, TUnion l) s coerce = Ok v.
  Proof.
    intros HJ HI U UO FM HW. set (dn := if coerce then Some (deserialize_json_numbers P W) else None).
    assert (Ehk : has_some dn = coerce) by (unfold dn; now destruct coerce).
    destruct (union_format false true (Some KList) J (class_fmt false true P coerce) tg l v true skip dn) as (x & v' & N & S & X); rewrite ?Ehk; auto; try discriminate.
    - intros h Eh f. unfold dn in Eh. destruct coerce; [|discriminate]. injection Eh as <-. apply json_hook_float.
    - apply same_false with (1 := le_n _) in S. subst v'. exists x, N. intros n Hn. destruct (X n Hn) as [A B]. unfold to_json, to_dict. rewrite A. split; auto.
  Qed.
  Theorem C58_yaml_round_trip J tg l v skip coerce :
    codec_law true false (Some KList) J ->
    own_union P K tg l -> union_ok P W tg l -> fmt_ok false P coerce (TUnion l) ->
    wt P W false (class_fmt true false P coerce) (survives true false (Some KList)) v (TUnion l) ->
    exists x v' N, same true v v' /\ forall n, N <= n ->
      to_yaml P W K J n v (Some (tg, TUnion l)) skip = dumps J x /\
      forall s, dumps J x = Ok s -> from_yaml P W K J n (tg, TUnion l) s coerce = Ok v'.
  Proof.
    intros HJ U UO FM HW. set (dn := if coerce then Some (deserialize_yaml_numbers P W) else None).
    assert (Ehk : has_some dn = coerce) by (unfold dn; now destruct coerce).
    destruct (union_format true false (Some KList) J (class_fmt true false P coerce) tg l v true skip dn) as (x & v' & N & S & X); rewrite ?Ehk; auto; try discriminate.
    - intros h Eh f. unfold dn in Eh. destruct coerce; [|discriminate]. injection Eh as <-. apply yaml_hook_float.
    - exists x, v', N. split; auto. intros n Hn. destruct (X n Hn) as [A B]. unfold to_yaml, to_json, to_dict. rewrite A. split; auto.
  Qed.
  Theorem C58_msgpack_round_trip J tg l v (named : bool) :
    codec_law false false (Some KTuple) J ->
    own_union P K tg l -> union_ok P W tg l ->
    wt P W false (fun _ => True) (survives false false (Some KTuple)) v (TUnion l) ->
    exists x N, forall n, N <= n ->
      to_msgpack P W K J n v (Some (tg, TUnion l)) named = dumps J x /\
      forall s, dumps J x = Ok s -> from_msgpack P W K J n (tg, TUnion l) s named = Ok v.
  Proof.
    intros HJ U UO HW.
    destruct (union_format false false (Some KTuple) J (fun _ => True) tg l v named false None) as (x & v' & N & S & X); auto; try discriminate.
    - intros d' _. apply class_fmt_false.
    - intros s _. destruct s; auto; [destruct p; auto|discriminate..].
    - apply same_false with (1 := le_n _) in S. subst v'. exists x, N. intros n Hn. destruct (X n Hn) as [A B].
      unfold to_msgpack, from_msgpack, to_dict, to_tuple, from_dict, from_tuple. destruct named; rewrite A; split; auto.
  Qed.

  (** C46 for the containers that [union_ok] admits: without frozensets and literals in them, after the other members. *)
  Theorem C46_member_partial tg l t v ro rc skip ro' :
    own_union P K tg l -> union_ok P W tg l -> In t l -> bulk t = true ->
    wt P W false (fun _ => True) (fun v => plain v = true) v t ->
    exists x N, forall n, N <= n ->
      to_dict P W K n v (Some (tg, TUnion l)) ro rc skip = Ok x /\
      from_dict P W K n (tg, TUnion l) x ro' None = Ok v.
  Proof. intros U UO I B HW. apply C58_dict_round_trip; auto. eapply wt_union; eauto. apply U. Qed.
End UnionTrip.

Module UTripEx.
  Definition ca := cls "A" [fld "x" TInt].
  Definition cb := cls "B" [fld "x" TInt; fld "y" (TUnion [TString; TList LList TString])].
  (** unions with container members as annotations *)
  Definition cu := cls "U"
    [fld "text" (TUnion [TString; TList LList TString]);
     fld "many" (TUnion [TClass "A"; TClass "B"; TList LList (TClass "B")]);
     fld "tab" (TUnion [TInt; TDict DkDict TString (TOpt (TTuple [TInt; TDate "date"])); TNone]);
     fld "keys" (TList LList (TUnion [TInt; TSet SkSet TInt]))].
  Definition p := prog [ca; cb; cu] [].
  Lemma frag : forall d, In d (p_classes p) -> frag_class p TripEx.w d.
  Proof. apply (frag_classesb_ok p TripEx.w 3). vm_compute. reflexivity. Qed.
  Definition b1 := VObj "B" [("x", VInt 2); ("y", vlist [VStr "ab"; VStr ""])].
  Definition u1 := VObj "U" [("text", vlist [VStr "q"]); ("many", vlist [b1; b1]);
    ("tab", dict [("k", VNone); ("l", VSeq KTuple [VInt 1; VDate "date" "2024-01-01"])]);
    ("keys", vlist [VInt 7; VSeq KSet [VInt 1; VInt 2]])].
  Example u1_wt : wt p TripEx.w false (fun _ => True) (fun v => plain v = true) u1 (TClass "U").
  Proof. apply (wtb_ok p TripEx.w false _ _ plain frag (fun _ _ => I) (fun _ H => H) 20). vm_compute. reflexivity. Qed.
  Example u1_trip : exists x N, forall n, N <= n -> to_dict p TripEx.w [] n u1 None None None false = Ok x /\
      from_dict p TripEx.w [] n (TagExternal, TClass "U") x None None = Ok u1.
  Proof. apply (C01_dict_round_trip p TripEx.w [] eq_refl eq_refl "U" cu); auto. apply u1_wt. exact I. Qed.
  Example u1_form : to_dict p TripEx.w [] 20 u1 None (Some false) (Some true) false = Ok (
    let b := dict [("x", VInt 2); ("y", vlist [VStr "ab"; VStr ""])] in
    dict [("text", vlist [VStr "q"]); ("many", vlist [b; b]); ("tab", dict [("k", VNone); ("l", VSeq KTuple [VInt 1; VStr "2024-01-01"])]);
          ("keys", vlist [VInt 7; vlist [VInt 1; VInt 2]])]).
  Proof. vm_compute. reflexivity. Qed.

  (** the same as class argument *)
  Definition l := [TString; TClass "A"; TClass "B"; TList LList (TClass "B"); TNone].
  Lemma l_own tg : own_union p [] tg l.
  Proof. apply own_unionb_ok. destruct tg; vm_compute; reflexivity. Qed.
  Lemma l_ok tag : tag = "kind" -> union_ok p TripEx.w (TagInternal tag) l.
  Proof. intros ->. apply union_okb_ok. vm_compute. reflexivity. Qed.
  Lemma v_wt v : In v [VStr "t"; VNone; b1; vlist [b1]] -> wt p TripEx.w false (fun _ => True) (fun v => plain v = true) v (TUnion l).
  Proof.
    intros I. apply (wtb_ok p TripEx.w false _ _ plain frag (fun _ _ => Logic.I) (fun _ H => H) 20).
    destruct I as [<-|[<-|[<-|[<-|[]]]]]; vm_compute; reflexivity.
  Qed.
  Example l_trip v : In v [VStr "t"; VNone; b1; vlist [b1]] -> exists x N, forall n, N <= n ->
    to_dict p TripEx.w [] n v (Some (TagInternal "kind", TUnion l)) None None false = Ok x /\
    from_dict p TripEx.w [] n (TagInternal "kind", TUnion l) x None None = Ok v.
  Proof. intros I. apply (C58_dict_round_trip p TripEx.w [] eq_refl eq_refl); [apply l_own|now apply l_ok|now apply v_wt]. Qed.
  Example l_form : to_dict p TripEx.w [] 20 b1 (Some (TagInternal "kind", TUnion l)) None None false =
    Ok (dict [("x", VInt 2); ("y", vlist [VStr "ab"; VStr ""]); ("kind", VStr "B")]).
  Proof. vm_compute. reflexivity. Qed.
  Lemma l_json_wt : wt p TripEx.w false (class_fmt false true p true) (survives false true (Some KList)) (vlist [b1]) (TUnion l).
  Proof.
    apply (wtb_ok p TripEx.w false _ _ (robust KList) frag) with (n := 20); [|intros v; exact (robust_survives _ _ _ _ v (le_n _))|vm_compute; reflexivity].
    apply Forall_forall. cbn. repeat (apply Forall_cons; [apply class_fmtb_ok; [vm_compute; reflexivity|reflexivity]|]). constructor.
  Qed.
  Lemma l_fmt : fmt_ok true p true (TUnion l).
  Proof. apply fmt_okb_ok. vm_compute. reflexivity. Qed.

  (** Why the container must come after the members of type str: list() takes text apart. *)
  Example list_first : from_dict p TripEx.w [] 20 (TagExternal, TUnion [TList LList TString; TString]) (VStr "ab") None None = Ok (vlist [VStr "a"; VStr "b"]).
  Proof. vm_compute. reflexivity. Qed.
End UTripEx.

Print Assumptions C58_dict_round_trip.
Print Assumptions C58_json_round_trip.
Print Assumptions C58_yaml_round_trip.
Print Assumptions C58_msgpack_round_trip.
Print Assumptions C46_member_partial.
