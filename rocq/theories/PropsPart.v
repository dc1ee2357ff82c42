(** What a flattened dataclass is read from: C60. *)
From Coq Require Import String List ZArith Bool Lia ListDec.
From Verif Require Import Base PyVal PyType Program Compat Syntax SeRender DeRender Eval Facts Mono Spec Cover Depend SeRT DeRT Transport PropsSe PropsDe PropsUnion PropsField Decide Ex.
Import ListNotations.
Open Scope string_scope.
Open Scope list_scope.

Section Part.
  Variables (P : program) (W : world) (K : list (tagging * pytype)).

  (** * Specification *)

  (** A field whose dataclass [c] is flattened into the class *)
  Definition flattens (f : fielddef) (c : string) : Prop :=
    f_flatten f = true /\ (f_type f = TClass c \/ f_type f = TUnion [TClass c; TNone]).
  Definition flattened_dict (f : fielddef) : Prop := f_flatten f = true /\ is_flatten_dict (f_type f) = true.

  (** The classes whose fields are at the level of a class: itself, and what is flattened into it by fields that satisfy [ok] *)
  Inductive merged (ok : fielddef -> Prop) : classdef -> classdef -> Prop :=
  | mg_own d : merged ok d d
  | mg_child d f c d1 d2 : c_transparent d = false -> In f (c_fields d) -> ok f -> flattens f c -> get_class P c = Some d1 ->
      merged ok d1 d2 -> merged ok d d2.
  Definition any_field (_ : fielddef) : Prop := True.

  (** The keys of a class are the names and aliases of the fields at its level. *)
  Definition own_key (d : classdef) (k : string) : Prop :=
    if c_transparent d then k = "__serde_transparent__"
    else exists f, In f (c_fields d) /\ ~ flattened_dict f /\ (forall c, ~ flattens f c) /\ (wire_name W d f = Some k \/ In k (f_alias f)).
  Definition key_of (d : classdef) (x : pyval) : Prop := exists d' k, merged any_field d d' /\ own_key d' k /\ eqv P (VStr k) x = true.
  (** A class gathers the entries that are left, if there is a flattened dict at its level. *)
  Definition gathers_itself (d : classdef) : Prop := exists f, In f (c_fields d) /\ read f = true /\ flattened_dict f.
  Definition gathers (d : classdef) : Prop := exists d', merged (fun f => read f = true) d d' /\ c_transparent d' = false /\ gathers_itself d'.

  (** The keys that class [dc], flattened into [d], gets: its own, and those foreign to [d] unless they are for a dict of [d] *)
  Definition gets (d dc : classdef) (x : pyval) : Prop :=
    key_of dc x \/ ~ key_of d x /\ (gathers dc \/ ~ gathers_itself d).

  (** * The sets computed by the generator *)

  Lemma flat_childP f c : flat_child f = Some c <-> flattens f c.
  Proof.
    unfold flat_child, flattens. destruct (f_flatten f); cbn [andb]; [|split; [discriminate|intros [X _]; discriminate X]].
    split.
    - intros H. split; [reflexivity|]. destruct (negb _); [|discriminate H].
      destruct (f_type f); try discriminate H; [|injection H as ->; now left].
      destruct (opt_arg (TUnion l)) as [[]|] eqn:E; try discriminate H. injection H as ->. right. unfold opt_arg in E.
      destruct l as [|a [|[] [|]]]; try discriminate E. destruct (is_none a); [discriminate E|]. injection E as ->. reflexivity.
    - intros [_ [-> | ->]]; reflexivity.
  Qed.
  Lemma flat_dictP f : is_flat_dict_field f = true <-> flattened_dict f.
  Proof. unfold is_flat_dict_field, flattened_dict. now rewrite andb_true_iff. Qed.
  Lemma flattens_no_dict f c : flattens f c -> is_flat_dict_field f = false.
  Proof. unfold flattens, is_flat_dict_field. intros [-> [-> | ->]]; reflexivity. Qed.

  Lemma repeats (l : list string) : ~ NoDup l -> exists c a b e, l = a ++ c :: b ++ c :: e.
  Proof.
    induction l as [|x l IH]; intros H; [destruct H; constructor|]. destruct (in_dec string_dec x l) as [I|N].
    - apply in_split in I as (b & e & ->). exists x, [], b, e. reflexivity.
    - destruct IH as (c & a & b & e & ->); [intros ND; apply H; now constructor|]. exists c, (x :: a), b, e. reflexivity.
  Qed.

  Section Walk.
    Variable ok : fielddef -> Prop.
    Definition hop (d : classdef) (c : string) : Prop := c_transparent d = false /\ exists f, In f (c_fields d) /\ ok f /\ flattens f c.
    Inductive path : classdef -> list string -> classdef -> Prop :=
    | pa_nil d : path d [] d
    | pa_cons d c d1 l d2 : hop d c -> get_class P c = Some d1 -> path d1 l d2 -> path d (c :: l) d2.
    Lemma merged_path d d' : merged ok d d' -> exists l, path d l d'.
    Proof.
      induction 1 as [d|d f c d1 d2 T I O F G _ [l IH]]; [exists []; constructor|]. exists (c :: l). econstructor; eauto. split; eauto.
    Qed.
    Lemma path_app d a c b d' : path d (a ++ c :: b) d' -> exists d1, get_class P c = Some d1 /\ path d1 b d' /\ forall e d2, path d1 e d2 -> path d (a ++ c :: e) d2.
    Proof.
      revert d. induction a as [|x a IH]; intros d H; cbn [app] in *; inversion H as [|? ? d1 ? ? HO G PA]; subst.
      - exists d1. split; [exact G|]. split; [exact PA|]. intros. econstructor; eauto.
      - destruct (IH _ PA) as (d2 & G2 & P2 & R). exists d2. split; [exact G2|]. split; [exact P2|]. intros. econstructor; eauto.
    Qed.
    Lemma path_short d l d' : path d l d' -> exists l', path d l' d' /\ List.length l' <= List.length (p_classes P).
    Proof.
      intros H. assert (S : exists l', path d l' d' /\ NoDup l').
      { remember (List.length l) as n eqn:E. revert l E H. induction n as [n IH] using lt_wf_ind. intros l -> H.
        destruct (ListDec.NoDup_dec string_dec l) as [ND|ND]; [eauto|].
        apply repeats in ND as (c & a & b & e & ->).
        destruct (path_app _ _ _ _ _ H) as (d1 & G & P1 & R). change (b ++ c :: e) with (b ++ c :: e) in P1.
        destruct (path_app _ _ _ _ _ P1) as (d2 & G2 & P2 & _). rewrite G in G2. injection G2 as <-.
        apply (IH (List.length (a ++ c :: e))) with (l := a ++ c :: e); [|reflexivity|now apply R].
        rewrite !app_length. cbn [List.length]. rewrite app_length. cbn [List.length]. lia. }
      destruct S as (l' & PA & ND). exists l'. split; [exact PA|]. rewrite <- (map_length c_id). apply NoDup_incl_length; [exact ND|].
      clear - PA. induction PA as [|d c d1 l d2 _ G _ IH]; [intros x []|]. intros x [<-|I]; [|auto]. apply find_class_id in G as [<- G]. now apply in_map.
    Qed.
    Lemma path_merged d l d' : path d l d' -> merged ok d d'.
    Proof. induction 1 as [|d c d1 l d2 (T & f & I & O & F) G _ IH]; [constructor|econstructor; eauto]. Qed.
  End Walk.

  Lemma known_sound n : forall d ks k, known_fields P W n d = Ok ks -> In k ks -> exists d', merged any_field d d' /\ own_key d' k.
  Proof.
    induction n as [|n IH]; intros d ks k H I; cbn [known_fields] in H; destruct (c_transparent d) eqn:T.
    1,3: injection H as <-; destruct I as [<-|[]]; exists d; split; [constructor|]; unfold own_key; now rewrite T.
    all: inv_bind H; injection H as <-; apply in_concat in I as (l & L & I); apply mapM_Ok in Hb; destruct (Forall2_in_r _ _ _ _ Hb L) as (f & F & E);
      destruct (is_flat_dict_field f) eqn:FD; [injection E as <-; destruct I|]; destruct (flat_child f) as [c|] eqn:FC.
    - injection E as <-. destruct I.
    - inv_bind E. injection E as <-. exists d. split; [constructor|]. unfold own_key. rewrite T. exists f. split; [exact F|].
      split; [rewrite <- flat_dictP; congruence|]. split; [intros c; rewrite <- flat_childP; congruence|].
      destruct I as [<-|I]; [left; eapply conv_wire; eauto|now right].
    - destruct (get_class P c) as [d1|] eqn:G; [|discriminate E]. destruct (IH _ _ _ E I) as (d' & M & O). exists d'. split; [|exact O].
      econstructor; eauto; [exact Logic.I|now apply flat_childP].
    - inv_bind E. injection E as <-. exists d. split; [constructor|]. unfold own_key. rewrite T. exists f. split; [exact F|].
      split; [rewrite <- flat_dictP; congruence|]. split; [intros c; rewrite <- flat_childP; congruence|].
      destruct I as [<-|I]; [left; eapply conv_wire; eauto|now right].
  Qed.
  Lemma known_complete l : forall n d d' ks k, path any_field d l d' -> List.length l <= n -> known_fields P W n d = Ok ks -> own_key d' k -> In k ks.
  Proof.
    induction l as [|c l IH]; intros n d d' ks k PA L H O; inversion PA as [|? ? d1 ? ? HO G PA']; subst.
    - unfold own_key in O. assert (X : known_fields P W n d' = known_fields P W n d') by reflexivity.
      destruct n as [|n]; cbn [known_fields] in H; (destruct (c_transparent d'); [injection H as <-; subst k; now left|]).
      all: inv_bind H; injection H as <-; destruct O as (f & F & ND & NC & O); apply mapM_Ok in Hb; destruct (Forall2_in_l _ _ _ _ Hb F) as (ks & KS & E);
        apply in_concat; exists ks; split; [exact KS|];
        rewrite <- flat_dictP in ND; destruct (is_flat_dict_field f); [now destruct ND|]; destruct (flat_child f) as [c|] eqn:FC; [apply flat_childP in FC; now destruct (NC c)|];
        inv_bind E; injection E as <-; destruct O as [O|O]; [left; apply conv_wire in Hb0; congruence|now right].
    - destruct n as [|n]; [cbn [List.length] in L; lia|]. cbn [known_fields] in H. destruct HO as (T & f & F & _ & FL). rewrite T in H.
      inv_bind H. injection H as <-. apply mapM_Ok in Hb. destruct (Forall2_in_l _ _ _ _ Hb F) as (ks & KS & E).
      rewrite (flattens_no_dict _ _ FL) in E. rewrite (proj2 (flat_childP f c) FL), G in E.
      apply in_concat. exists ks. split; [exact KS|]. apply (IH n d1 d' ks k PA'); [cbn [List.length] in L; lia|assumption..].
  Qed.
  Lemma known_keys d ks x : known_fields P W (class_fuel P) d = Ok ks -> (key_in P x ks = true <-> key_of d x).
  Proof.
    intros H. unfold key_in, key_of. rewrite existsb_exists. split.
    - intros (k & I & E). destruct (known_sound _ _ _ _ H I) as (d' & M & O). eauto.
    - intros (d' & k & M & O & E). exists k. split; [|exact E]. apply merged_path in M as [l M]. apply path_short in M as (l' & M & L).
      eapply known_complete; [exact M| |exact H|exact O]. unfold class_fuel. lia.
  Qed.

  Lemma direct_flatP d : direct_flat d = true <-> gathers_itself d.
  Proof.
    unfold direct_flat, gathers_itself. rewrite existsb_exists. split.
    - intros (f & F & D). apply filter_In in F as [F R]. exists f. now rewrite <- flat_dictP.
    - intros (f & F & R & D). exists f. rewrite filter_In, flat_dictP. auto.
  Qed.
  Lemma flat_sound n : forall d, has_flat P n d = true -> gathers d.
  Proof.
    induction n as [|n IH]; intros d H; cbn [has_flat] in H; (destruct (c_transparent d) eqn:T; [discriminate H|]);
      apply existsb_exists in H as (f & F & H); apply andb_prop in H as [R H]; rewrite renderable_read in R; apply orb_prop in H as [H|H].
    1,3: exists d; split; [constructor|]; split; [exact T|]; exists f; now rewrite <- flat_dictP.
    - destruct (flat_child f); discriminate H.
    - destruct (flat_child f) as [c|] eqn:FC; [|discriminate H]. destruct (get_class P c) as [d1|] eqn:G; [|discriminate H].
      destruct (IH _ H) as (d' & M & O). exists d'. split; [|exact O]. econstructor; eauto. now apply flat_childP.
  Qed.
  Lemma flat_complete l : forall n d d', path (fun f => read f = true) d l d' -> List.length l <= n -> c_transparent d' = false -> gathers_itself d' -> has_flat P n d = true.
  Proof.
    induction l as [|c l IH]; intros n d d' PA L T' (f & F & R & D); inversion PA as [|? ? d1 ? ? HO G PA']; subst.
    - destruct n as [|n]; cbn [has_flat]; rewrite T'; apply existsb_exists; exists f; (split; [exact F|]); rewrite renderable_read, R, (proj2 (flat_dictP f) D); reflexivity.
    - destruct n as [|n]; [cbn [List.length] in L; lia|]. cbn [has_flat]. destruct HO as (T & g & I & R' & FL). rewrite T. apply existsb_exists.
      exists g. split; [exact I|]. rewrite renderable_read, R', (proj2 (flat_childP g c) FL), G. cbn [andb]. apply orb_true_iff. right.
      apply (IH n d1 d' PA'); [cbn [List.length] in L; lia|assumption|]. exists f. auto.
  Qed.
  Lemma has_flatP d : has_flat P (class_fuel P) d = true <-> gathers d.
  Proof.
    split; [apply flat_sound|]. intros (d' & M & T & G). apply merged_path in M as [l M]. apply path_short in M as (l' & M & L).
    eapply flat_complete; eauto. unfold class_fuel. lia.
  Qed.

  (** * C60 *)

  (** The value of a flattened dataclass field is what from_dict makes, for its class, of the entries that [gets]
      describes, in their order.  In particular deny_unknown_fields of the class does not reject the keys of other fields. *)
  Theorem C60_part n tg tg' t d m kvs ro dn o f c dc :
    targets P t d -> unalias t = TClass (c_id d) -> dictlike d -> c_tvars d = None -> names_ok P d ->
    In f (c_fields d) -> read f = true -> plain_de P d f -> f_default f = None ->
    f_flatten f = true -> f_type f = TClass c -> get_class P c = Some dc -> first_de P (TClass c) = None ->
    from_dict P W K n (tg, t) (VMap m kvs) ro dn = Ok o ->
    exists attrs v p, c_post d (VObj (c_id d) attrs) = Ok o /\ slookup (f_name f) attrs = Some v /\
      (forall kv, p kv = true <-> gets d dc (fst kv)) /\
      from_dict P W K n (tg', TClass c) (VMap MDict (filter p kvs)) (Some (flag ro (c_reuse d))) dn = Ok v.
  Proof.
    intros HT TU HD TV NO Hf R PD DF FL TY GC FD H.
    destruct (from_dict_object _ _ _ _ _ _ _ _ _ _ _ HT HD (map_not_inst _ _ _ _ _ HT) H) as (n' & known & attrs & -> & KN & A & _ & B & _).
    destruct (B f Hf R) as (v & V1 & (s & ex & S1 & _ & S2) & _).
    assert (FC : flat_child f = Some c) by (apply flat_childP; split; auto).
    pose proof (has_flatP dc) as HF. unfold field_stmt in S1.
    rewrite (flattens_no_dict f c) in S1 by (split; auto). rewrite FC, GC in S1. set (hf := has_flat P (class_fuel P) dc) in *. clearbody hf. inv_bind S1. inv_bind Hb. injection Hb as <-. rename a0 into ck.
    cbn [fst snd] in *. inv_bind S1. rename a into e. rewrite plain_de_rest in Hb by exact PD. unfold de_rest in Hb. rewrite TY in Hb. inv_bind Hb.
    rename a into e1. unfold de_default in Hb. cbn [fieldarg field_arg da_default da_iter] in Hb. rewrite DF in Hb. cbn [has_some andb] in Hb. injection Hb as <-.
    unfold de_gcore, de_class in Hb1. cbn [fieldarg field_arg da_flatten da_iter da_var da_parent da_targs] in Hb1. rewrite FL in Hb1. cbn [bind] in Hb1. injection Hb1 as <-.
    rewrite DF in S1. cbn [has_some] in S1. inv_bind S1. injection S1 as <-.
    set (p := fun kv : pyval * pyval => key_in P (fst kv) ck || ((hf || negb (direct_flat d)) && negb (key_in P (fst kv) known))).
    exists attrs, v, p. split; [exact A|]. split; [exact V1|]. split.
    - intros kv. unfold p, gets. rewrite orb_true_iff, andb_true_iff, orb_true_iff, !negb_true_iff, (known_keys _ _ _ Hb0), HF.
      rewrite <- !not_true_iff_false, (known_keys _ _ _ KN), direct_flatP. tauto.
    - cbn [run_dstmt] in S2. inv_bind S2. unfold project_flat in Hb1. cbn [pr_child pr_parent pr_child_flat pr_parent_flat] in Hb1. fold p in Hb1.
      replace (if truthy _ _ then _ else _) with (Ok (VMap MDict (filter p kvs))) in Hb1 by (destruct kvs, m; reflexivity). cbn [bind] in Hb1. injection Hb1 as <-.
      match type of S2 with context [eval ?q ?w ?r ?cx ?rho ?ex] => assert (E : eval q w r cx rho ex = Ok v) by (revert S2; destruct (eval q w r cx rho ex) as [y|[]|]; intros S2; try discriminate S2; injection S2 as ->; reflexivity) end.
      clear S2. cbn [eval] in E.
      assert (TG : (match (if String.eqb (c_id d) c then DtCls else DtName (TClass c)) with
        | DtCls => Ok (x_cls (top_ctx P d t ro dn))
        | DtName t0 => t' <- resolve P (x_g (top_ctx P d t ro dn)) t0 ;; match t' with TClass c => of_option XAttr (get_class P c) | _ => Raise XAttr end end) = Ok dc).
      { destruct (String.eqb_spec (c_id d) c) as [<-|N].
        - destruct HT as (c0 & HC & G & _). unfold class_of in HC. rewrite TU in HC. injection HC as <-. cbn. congruence.
        - change (x_g (top_ctx P d t ro dn)) with (de_globals P d). rewrite (de_lookup P d (TClass c) NO eq_refl).
          + cbn [bind]. now rewrite GC.
          + eapply iter_types_field; eauto; [unfold read in R; destruct (f_init f), (f_skip f); try discriminate R; reflexivity|rewrite TY; constructor]. }
      rewrite TG in E. clear TG. cbn [bind slookup] in E. rewrite String.eqb_refl in E. cbn [of_option bind] in E.
      unfold from_dict. assert (HT' : targets P (TClass c) dc) by (exists c; auto).
      rewrite (from_obj_eq _ _ _ _ _ _ _ _ _ _ _ HT' (map_not_inst _ _ _ _ _ HT')). cbn [unalias].
      change (x_reuse (top_ctx P d t ro dn)) with (flag ro (c_reuse d)) in E. change (x_dn (top_ctx P d t ro dn)) with dn in E.
      change (x_mg (top_ctx P d t ro dn)) with (Some (unalias t)) in E. change (x_mgtv (top_ctx P d t ro dn)) with (c_tvars d) in E. rewrite TV, TU in E.
      apply (run_mono P W K n' (S n')) in E; [|lia|discriminate].
      rewrite (run_mg P W K (S n') _ (QDe dc (VMap MDict (filter p kvs)) true (Some (flag ro (c_reuse d))) dn (Some (TClass (c_id d))) None None)), E; [reflexivity|].
      right. repeat eexists; discriminate.
  Qed.

  (** * C12: flattened dicts, next to flattened dataclasses too *)

  (** A flattened dict gets exactly the entries whose key is not one of the class or of what is flattened into it. *)
  Theorem C12_collects n tg t d m kvs ro dn o f :
    targets P t d -> dictlike d -> In f (c_fields d) -> read f = true -> flattened_dict f ->
    from_dict P W K n (tg, t) (VMap m kvs) ro dn = Ok o ->
    exists attrs p, c_post d (VObj (c_id d) attrs) = Ok o /\ slookup (f_name f) attrs = Some (VMap MDict (filter p kvs)) /\
      forall kv, p kv = true <-> ~ key_of d (fst kv).
  Proof.
    intros HT HD Hf R FD H.
    destruct (from_dict_object _ _ _ _ _ _ _ _ _ _ _ HT HD (map_not_inst _ _ _ _ _ HT) H) as (n' & known & attrs & _ & KN & A & _ & B & _).
    exists attrs, (fun kv => negb (key_in P (fst kv) known)). split; [exact A|]. split.
    - destruct (B f Hf R) as (v & V1 & V2 & _). rewrite V1. f_equal.
      apply takes_dict in V2 as (kvs' & E & ->); [|assumption|assumption|now apply flat_dictP].
      unfold items_or_empty in E. destruct kvs as [|kv kvs]; [destruct m; injection E as <-; reflexivity|].
      destruct m; injection E as <-; reflexivity.
    - intros kv. rewrite <- (known_keys _ _ _ KN), negb_true_iff, not_true_iff_false. reflexivity.
  Qed.

  (** A field that is a flattened dict or flattens a dataclass with one, at any depth *)
  Inductive brings_dict : fielddef -> Prop :=
  | bd_dict f : flattened_dict f -> brings_dict f
  | bd_child f c d g : flattens f c -> get_class P c = Some d -> In g (c_fields d) -> brings_dict g -> brings_dict f.
  Fixpoint first_entry (k : string) (ls : list (list (pyval * pyval))) : option pyval :=
    match ls with
    | [] => None
    | l :: r => match skey P l k with Some x => Some x | None => first_entry k r end
    end.

  Lemma key_target case f ts : (k <- conv W case (f_name f) (f_rename f) ;; k <- lit k ;; Ok [TgtKey k]) = Ok ts -> ~ In TgtFlat ts.
  Proof. intros H. inv_bind H. inv_bind H. injection H as <-. intros [X|[]]. discriminate X. Qed.
  Lemma no_flat_target n : forall case b g ts, ~ brings_dict g -> se_targets P W n case b g = Ok ts -> ~ In TgtFlat ts.
  Proof.
    assert (OPT : forall t c, opt_arg t = Some (TClass c) -> t = TUnion [TClass c; TNone]).
    { intros t c E. unfold opt_arg in E. destruct t as [| | | | |l| | | | | | | | | | | | | | | | | |]; try discriminate E.
      destruct l as [|a [|[] [|]]]; try discriminate E. destruct (is_none a); [discriminate E|]. injection E as ->. reflexivity. }
    assert (CORE : forall (flat : string -> res (list target)) case g ts, ~ brings_dict g -> (forall c ts, flattens g c -> flat c = Ok ts -> ~ In TgtFlat ts) ->
      (let key := k <- conv W case (f_name g) (f_rename g) ;; k <- lit k ;; Ok [TgtKey k] in
       if f_flatten g then
        match f_type g with
        | TClass c => flat c
        | t => match opt_arg t with
               | Some (TClass c) => flat c
               | _ => if is_flatten_dict t then Ok [TgtFlat] else key
               end
        end
       else key) = Ok ts -> ~ In TgtFlat ts).
    { intros flat case g ts NB FL H. cbv zeta in H. destruct (f_flatten g) eqn:F; [|eapply key_target; eauto].
      assert (ND : is_flatten_dict (f_type g) = false).
      { destruct (is_flatten_dict (f_type g)) eqn:X; [|reflexivity]. destruct NB. constructor. split; assumption. }
      assert (D : forall t, f_type g = t -> match opt_arg t with Some (TClass c) => flat c | _ => if is_flatten_dict t then Ok [TgtFlat] else k <- conv W case (f_name g) (f_rename g) ;; k <- lit k ;; Ok [TgtKey k] end = Ok ts -> ~ In TgtFlat ts).
      { intros t <- X. rewrite ND in X. destruct (opt_arg (f_type g)) as [[]|] eqn:OA; try (eapply key_target; eauto; fail).
        eapply FL; [|exact X]. split; [exact F|right; apply OPT; exact OA]. }
      specialize (D _ eq_refl). destruct (f_type g) eqn:T; try (apply D; exact H).
      eapply FL; [|exact H]. split; [exact F|now left]. }
    induction n as [|n IH]; intros case b g ts NB H; cbn [se_targets] in H.
    - apply (CORE (fun _ => Raise XRecursion) case g ts NB); [discriminate|exact H].
    - refine (CORE (fun c => match get_class P c with
          | None => Raise XAttr
          | Some d => fs <- sefields d b ;; ts <- mapM (fun fs => se_targets P W n case b (fst fs)) fs ;; Ok (concat ts)
          end) case g ts NB _ H).
      intros c l FL X. destruct (get_class P c) as [d|] eqn:G; [|discriminate X]. inv_bind X. inv_bind X. injection X as <-.
      apply mapM_Ok in Hb0. intros I. apply in_concat in I as (l & L & I). destruct (Forall2_in_r _ _ _ _ Hb0 L) as (fs & F & E).
      apply (IH _ _ _ _) in E; [now apply E|]. intros BD.
      unfold sefields in Hb. inv_bind Hb. injection Hb as <-. apply in_app_or in F as [F|F].
      + apply mapM_Ok in Hb1. destruct (Forall2_in_r _ _ _ _ Hb1 F) as (h & Hh & E'). inv_bind E'. inv_bind E'. injection E' as <-.
        apply NB. eapply bd_child; eauto.
      + destruct b; [|destruct F]. apply in_map_iff in F as (cv & <- & _). destruct cv as [[nm ty] y]. inversion BD as [? [X _]|? ? ? ? [X _]]; subst; discriminate X.
  Qed.

  (** The expressions of a field evaluate to the same if the objects agree on it. *)
  Lemma rhs_agree call cx c attrs attrs0 n cfg g l : slookup (f_name g) attrs = slookup (f_name g) attrs0 -> se_field P n cfg g obj_var = Ok l ->
    mapM (eval P W call cx [("obj", VObj c attrs)]) l = mapM (eval P W call cx [("obj", VObj c attrs0)]) l.
  Proof.
    intros AG E.
    set (R := fun rho rho' : env => exists pre, (forall x v, In (x, v) pre -> x <> "obj") /\ rho = pre ++ [("obj", VObj c attrs)] /\ rho' = pre ++ [("obj", VObj c attrs0)]).
    set (leaf := fun e => e = EAttr obj_var (f_name g)).
    pose proof (se_field_all P leaf (fun x => x = "v" \/ x = "k") (or_introl eq_refl) (or_intror eq_refl) _ _ _ obj_var _
        ltac:(cbn [okx]; left; reflexivity) E) as O. rewrite Forall_forall in O.
    apply Facts.mapM_ext. intros e I. specialize (O e I).
    assert (SK : set_skip (x_skip cx) cx = cx) by (destruct cx; reflexivity).
    rewrite <- SK at 2. eapply (eval_okx P W call cx (x_skip cx) leaf (fun x => x = "v" \/ x = "k") True R); [..|exact O|].
    - reflexivity.
    - intros rho rho' x (pre & Hp & -> & ->) Hx. rewrite !slookup_app.
      destruct (slookup x pre); [reflexivity|]. cbn [slookup]. destruct Hx as [-> | ->]; reflexivity.
    - intros rho rho' x (pre & Hp & -> & ->). exists (("v", x) :: pre). split; [|split; reflexivity].
      intros y v [E0|H]; [injection E0 as <- <-; discriminate|eauto].
    - intros rho rho' x (pre & Hp & -> & ->). exists (("k", x) :: pre). split; [|split; reflexivity].
      intros y v [E0|H]; [injection E0 as <- <-; discriminate|eauto].
    - intros e' rho rho' -> (pre & Hp & -> & ->). rewrite SK. cbn [eval obj_var].
      assert (L : slookup "obj" pre = None).
      { apply slookup_None. intros H. apply in_map_iff in H as [[x v] [E0 H]]. cbn [fst] in E0. subst x. now apply (Hp _ _ H). }
      rewrite !slookup_app, L. cbn [slookup]. change (String.eqb "obj" "obj") with true. cbn [of_option bind]. unfold getattr. now rewrite AG.
    - exists []. split; [easy|]. split; reflexivity.
  Qed.

  Section Precede.
    Variable E : string -> option pyval.
    Definition behind (m m0 : list (pyval * pyval)) : Prop :=
      forall k, skey P m k = match skey P m0 k with Some x => Some x | None => E k end.
    Lemma behind_assign1 t v m m0 : t <> TgtFlat -> behind m m0 -> behind (assign1 P m (t, v)) (assign1 P m0 (t, v)).
    Proof.
      intros NF B k. unfold assign1. cbn [fst snd]. destruct t as [q|]; [|congruence]. unfold skey. rewrite !dget_dset_str.
      destruct (String.eqb q k); [reflexivity|]. apply B.
    Qed.
    Lemma behind_fold us : ~ In TgtFlat us -> forall l m m0, behind m m0 -> behind (fold_left (assign1 P) (combine us l) m) (fold_left (assign1 P) (combine us l) m0).
    Proof.
      induction us as [|u us IH]; intros NF [|x l] m m0 B; cbn [combine fold_left]; try exact B.
      apply IH; [intros X; apply NF; now right|]. apply behind_assign1; [|exact B]. intros ->. apply NF. now left.
    Qed.
    Lemma behind_assign ts v m m0 m1 : ~ In TgtFlat ts -> behind m m0 -> assign P ts v m = Ok m1 ->
      exists m2, assign P ts v m0 = Ok m2 /\ behind m1 m2.
    Proof.
      intros NF B H. unfold assign in *. destruct ts as [|t [|t' ts]]; [discriminate H|..].
      - injection H as <-. eexists. split; [reflexivity|]. apply behind_assign1; [|exact B]. intros ->. apply NF. now left.
      - inv_bind H. rewrite Hb. cbn [bind]. destruct (Nat.eqb _ _); [|discriminate H]. injection H as <-. eexists. split; [reflexivity|].
        exact (behind_fold (t :: t' :: ts) NF a m m0 B).
    Qed.
  End Precede.

  (** Empty dicts contribute nothing. *)
  Lemma empty_dict call cx c attrs n d f l : plain_se P d f -> flattened_dict f -> slookup (f_name f) attrs = Some (VMap MDict []) ->
    se_field P n (se_cfg d true) f obj_var = Ok l ->
    mapM (eval P W call cx [("obj", VObj c attrs)]) l = Ok [VMap MDict []].
  Proof.
    intros (S1 & S2 & S3) [F1 F2] A H. rewrite se_field_own in H by (now right). change (r_class_ser (se_cfg d true)) with (c_class_ser d) in H.
    rewrite S3, S2 in H. inv_bind H. injection H as <-.
    assert (V : eval P W call cx [("obj", VObj c attrs)] (EAttr obj_var (f_name f)) = Ok (VMap MDict [])).
    { cbn [eval obj_var slookup]. rewrite String.eqb_refl. cbn [of_option bind]. unfold getattr. now rewrite A. }
    assert (LW : forall t v e, legacy_wrap (se_cfg d true) false false t v e = e) by (intros; unfold legacy_wrap; cbn [se_cfg r_legacy]; now rewrite S1).
    assert (X : a = EAttr obj_var (f_name f) \/ exists ek ev, a = EMapComp ek ev (EAttr obj_var (f_name f))).
    { destruct (f_type f) eqn:T; try discriminate F2; cbn [se_ty] in Hb; change (r_class_ser (se_cfg d true)) with (c_class_ser d) in Hb; rewrite S3 in Hb.
      - inv_bind Hb. inv_bind Hb0. inv_bind Hb0. injection Hb0 as <-. injection Hb as <-. rewrite LW. right. eauto.
      - destruct b; try discriminate F2. destruct k; try discriminate F2; cbn [bind] in Hb; injection Hb as <-; rewrite LW; now left. }
    cbn [mapM]. destruct X as [->|(ek & ev & ->)]; [now rewrite V|]. cbn [eval]. cbn [eval] in V. rewrite V. reflexivity.
  Qed.

  (** The entries of the flattened dicts of a class are added where the rest of the object has no entry; the first dict wins.
      The rest of the object is what is written if the dicts are empty. *)
  Theorem C12_precedence n c d attrs attrs0 cc ro rc skip x :
    get_class P c = Some d -> c_transparent d = false -> first_ser P (VObj c attrs) = None -> plain_arg cc ->
    (forall f, In f (c_fields d) -> written f = true -> brings_dict f -> flattened_dict f) ->
    (forall f, In f (c_fields d) -> written f = true -> flattened_dict f -> plain_se P d f /\ slookup (f_name f) attrs0 = Some (VMap MDict [])) ->
    (forall a, slookup a attrs = slookup a attrs0 \/ ~ In a (map (fun cv => fst (fst cv)) (c_class_vars d)) /\
                                                     forall f, In f (c_fields d) -> f_name f = a -> flattened_dict f) ->
    to_dict P W K (S (S n)) (VObj c attrs) cc ro rc skip = Ok x ->
    let ser := ser_value P W K n d true (flag ro (c_reuse d)) (flag rc (c_conv d)) skip (VObj c attrs) in
    exists kvs kvs0 ls, x = VMap MDict kvs /\ to_dict P W K (S (S n)) (VObj c attrs0) cc ro rc skip = Ok (VMap MDict kvs0) /\
      Forall2 (fun f l => exists v, ser f = Ok v /\ extra_entries P v l) (filter (fun f => written f && is_flat_dict_field f) (c_fields d)) ls /\
      forall k, skey P kvs k = match skey P kvs0 k with Some y => Some y | None => first_entry k ls end.
  Proof.
    intros Hd TR FS PA BD EM AG H ser. unfold to_dict in *.
    apply (to_obj_inv _ _ _ _ _ d) in H; auto. rewrite to_obj_eq, Hd by assumption. cbn [of_option bind].
    assert (G : exists kvs kvs0 ls, x = VMap MDict kvs /\ Eval.run P W K (S n) (QSe d (VObj c attrs0) true ro rc skip) = Ok (VMap MDict kvs0) /\
      Forall2 (fun f l => exists v, ser f = Ok v /\ extra_entries P v l) (filter (fun f => written f && is_flat_dict_field f) (c_fields d)) ls /\
      forall k, skey P kvs k = match skey P kvs0 k with Some y => Some y | None => first_entry k ls end).
    2:{ destruct G as (kvs & kvs0 & ls & -> & G & R). exists kvs, kvs0, ls. split; [reflexivity|]. rewrite G. split; [reflexivity|exact R]. }
    cbn [Eval.run step] in H |- *. unfold ser, ser_value. inv_bind H. inv_bind H. rewrite Hb, Hb0. rename a0 into fns. cbn [render_se] in Hb. unfold render_to_dict in Hb.
    inv_bind Hb. rename a0 into fs. rewrite TR in Hb. inv_bind Hb. injection Hb as <-. rename a0 into stmts. cbn [bind].
    cbn [run_se_body] in H |- *. inv_bind H. injection H as <-. rename a into mm. rename Hb into HM. apply mapM_Ok in Hb2.
    set (cx := se_ctx P d fns (flag ro (c_reuse d)) (flag rc (c_conv d)) skip) in *. set (run := Eval.run P W K n) in *.
    set (serv := fun f => l <- se_field P (class_fuel P) (se_cfg d true) f obj_var ;; vs <- mapM (eval P W run cx [("obj", VObj c attrs)]) l ;; Ok (tuple_of vs)).
    assert (LIVE : forall fd, In fd (filter (fun fs => negb (se_skipped (fst fs))) fs) -> (In (fst fd) (c_fields d) /\ written (fst fd) = true) \/
       (f_flatten (fst fd) = false /\ In (f_name (fst fd)) (map (fun cv => fst (fst cv)) (c_class_vars d)))).
    { intros fd Hf. unfold sefields in Hb1. inv_bind Hb1. injection Hb1 as <-. apply filter_In in Hf as [Hf Hw]. apply in_app_or in Hf as [Hf|Hf].
      - apply mapM_Ok in Hb. destruct (Forall2_in_r _ _ _ _ Hb Hf) as [g [Hg E]]. inv_bind E. inv_bind E. injection E as <-. cbn [fst] in *. left.
        split; [exact Hg|]. unfold se_skipped in Hw. rewrite negb_orb in Hw. exact Hw.
      - right. destruct (c_ser_class_var d); [|destruct Hf]. apply in_map_iff in Hf as ([[nm t] v] & <- & Hcv). split; [reflexivity|].
        cbn [fst class_var_field f_name]. apply in_map_iff. exists (nm, t, v). auto. }
    assert (FL : filter (fun f => is_flat_dict_field f) (map fst (filter (fun fs => negb (se_skipped (fst fs))) fs)) = filter (fun f => written f && is_flat_dict_field f) (c_fields d)).
    { unfold sefields in Hb1. inv_bind Hb1. injection Hb1 as <-. rewrite filter_app, map_app, filter_app.
      assert (Z : filter (fun f => is_flat_dict_field f) (map fst (filter (fun fs => negb (se_skipped (fst fs))) (if c_ser_class_var d then map (fun cv => (class_var_field cv, @None (string * skipfn))) (c_class_vars d) else []))) = []).
      { destruct (c_ser_class_var d); [|reflexivity]. clear. induction (c_class_vars d) as [|[[nm t] v] r IH]; [reflexivity|exact IH]. }
      rewrite Z, app_nil_r. apply mapM_Ok in Hb. clear - Hb. induction Hb as [|f y l l' E F IH]; [reflexivity|].
      inv_bind E. inv_bind E. injection E as <-. cbn [filter map fst]. unfold se_skipped at 1. rewrite negb_orb.
      change (negb (f_skip f) && negb (f_skip_se f)) with (written f). destruct (written f); cbn [andb map filter fst]; [|exact IH].
      destruct (is_flat_dict_field f); cbn [filter fst]; [f_equal|]; exact IH. }
    rewrite <- FL. revert LIVE Hb2 HM. clear FL Hb1. generalize (filter (fun fs => negb (se_skipped (fst fs))) fs) as live. intros live LIVE F.
    assert (GO : forall ls0 m m0, behind (fun k => first_entry k ls0) m m0 -> foldM (run_sstmt P W run cx [("obj", VObj c attrs)]) stmts m = Ok mm ->
      exists mm0 ls, foldM (run_sstmt P W run cx [("obj", VObj c attrs0)]) stmts m0 = Ok mm0 /\
        Forall2 (fun f l => exists v, serv f = Ok v /\ extra_entries P v l) (filter (fun f => is_flat_dict_field f) (map fst live)) ls /\ behind (fun k => first_entry k (ls0 ++ ls)) mm mm0).
    2:{ intros HM. destruct (GO [] [] []) as (mm0 & ls & A & B & C); [intros k; reflexivity|exact HM|]. exists mm, mm0, ls. split; [reflexivity|].
        rewrite A. split; [reflexivity|]. split; [exact B|exact C]. }
    revert LIVE. induction F as [|fd st live sts Hst F IH]; intros LIVE ls0 m m0 B HM.
    { cbn [foldM] in HM |- *. injection HM as <-. exists m0, []. split; [reflexivity|]. split; [constructor|]. now rewrite app_nil_r. }
    specialize (IH (fun x I => LIVE x (or_intror I))). specialize (LIVE fd (or_introl eq_refl)).
    inv_bind Hst. inv_bind Hst. rename a into rhs, a0 into ts. rename Hb into RHS. rename Hb1 into TS.
    assert (ST : st = mkSstmt rhs ts (option_map fst (snd fd))) by (destruct rhs; [discriminate Hst|now injection Hst as <-]). clear Hst. subst st.
    cbn [foldM] in HM. inv_bind HM. rename a into m1. rename Hb into HR. cbn [foldM map filter]. unfold run_sstmt in HR |- * at 1. cbn [s_rhs s_targets s_skip] in *. inv_bind HR. rename a into vs.
    destruct (is_flat_dict_field (fst fd)) eqn:FD.
    - pose proof (proj1 (flat_dictP _) FD) as FD'. destruct LIVE as [[I WR]|[X _]]; [|destruct FD' as [X' _]; congruence].
      destruct (EM _ I WR FD') as [PS A0]. rewrite (empty_dict run cx c attrs0 _ d (fst fd) rhs PS FD' A0 RHS). cbn [bind tuple_of].
      pose proof (own_target P W (fst fd) ts _ d _ (or_intror (proj2 FD')) TS) as OT. rewrite (proj1 FD') in OT. subst ts. cbn [truthy].
      assert (EX : exists l, extra_entries P (tuple_of vs) l /\ m1 = put P m (Extra l)).
      { unfold extra_entries. destruct (truthy (enum_scalar P) (tuple_of vs)).
        - inv_bind HR. injection HR as <-. destruct (tuple_of vs); try discriminate Hb1. injection Hb1 as ->. eexists. split; [eexists; reflexivity|reflexivity].
        - injection HR as <-. exists []. split; reflexivity. }
      destruct EX as (l & EX & ->).
      assert (B' : behind (fun k => first_entry k (ls0 ++ [l])) (put P m (Extra l)) m0).
      { intros k. unfold skey. rewrite dget_put. specialize (B k). unfold skey in B. rewrite B. destruct (dget (enum_scalar P) m0 (VStr k)); [reflexivity|].
        clear. induction ls0 as [|l0 r IHl]; cbn [first_entry app]; unfold skey; [destruct (dget _ l _); reflexivity|]. destruct (dget _ l0 _); [reflexivity|exact IHl]. }
      destruct (IH _ _ _ B' HM) as (mm0 & ls & R1 & R2 & R3). exists mm0, (l :: ls). split; [exact R1|]. split.
      + constructor; [|exact R2]. exists (tuple_of vs). split; [|exact EX]. unfold serv. rewrite RHS. cbn [bind]. rewrite Hb. reflexivity.
      + rewrite <- app_assoc in R3. exact R3.
    - assert (A : slookup (f_name (fst fd)) attrs = slookup (f_name (fst fd)) attrs0).
      { destruct (AG (f_name (fst fd))) as [A|[N1 N2]]; [exact A|]. exfalso. destruct LIVE as [[I _]|[_ I]]; [|now apply N1].
        apply N2 in I; [|reflexivity]. apply flat_dictP in I. congruence. }
      rewrite <- (rhs_agree run cx c attrs attrs0 _ _ _ _ A RHS), Hb. cbn [bind].
      assert (NB : ~ brings_dict (fst fd)).
      { intros X. destruct LIVE as [[I WR]|[X' _]].
        - apply BD in X; auto. apply flat_dictP in X. congruence.
        - inversion X as [? [Y _]|? ? ? ? [Y _]]; subst; congruence. }
      pose proof (no_flat_target _ _ _ _ _ NB TS) as NT.
      assert (NX : match ts with [TgtFlat] => False | _ => True end) by (destruct ts as [|[] []]; try exact Logic.I; apply NT; now left).
      assert (HR' : match option_map fst (snd fd) with
        | Some nm => match fn_lookup cx nm with
                     | Some (GSkip p) => b <- run_skip P run p (tuple_of vs) ;; if (b : bool) then Ok m else assign P ts (tuple_of vs) m
                     | _ => Raise XName end
        | None => if x_skip cx then match tuple_of vs with VNone => Ok m | _ => assign P ts (tuple_of vs) m end else assign P ts (tuple_of vs) m
        end = Ok m1) by (destruct ts as [|[] []]; try exact HR; destruct NX). clear HR.
      assert (RUN : exists m2, match option_map fst (snd fd) with
        | Some nm => match fn_lookup cx nm with
                     | Some (GSkip p) => b <- run_skip P run p (tuple_of vs) ;; if (b : bool) then Ok m0 else assign P ts (tuple_of vs) m0
                     | _ => Raise XName end
        | None => if x_skip cx then match tuple_of vs with VNone => Ok m0 | _ => assign P ts (tuple_of vs) m0 end else assign P ts (tuple_of vs) m0
        end = Ok m2 /\ behind (fun k => first_entry k ls0) m1 m2).
      { assert (AS : forall m1, assign P ts (tuple_of vs) m = Ok m1 -> exists m2, assign P ts (tuple_of vs) m0 = Ok m2 /\ behind (fun k => first_entry k ls0) m1 m2) by (intros; eapply behind_assign; eauto).
        destruct (option_map fst (snd fd)).
        - destruct (fn_lookup cx s) as [[]|]; try discriminate HR'. inv_bind HR'. rewrite Hb1. cbn [bind]. destruct a; [injection HR' as <-; eauto|auto].
        - destruct (x_skip cx); [|auto]. destruct (tuple_of vs); auto. injection HR' as <-. eauto. }
      destruct RUN as (m2 & R & B'). destruct (IH _ _ _ B' HM) as (mm0 & ls & R1 & R2 & R3). exists mm0, ls. split; [|split; assumption].
      destruct ts as [|[] []]; try (rewrite R; exact R1); destruct NX.
  Qed.
End Part.

(** * Examples *)

Module PartEx.
  (** Two dataclasses flattened into one with a dict: the first rejects unknown keys, the second has a dict itself. *)
  Definition A := clsx "A" [fld "x" TInt; with_names (Some "why") [] (fld "y" TInt)] None TagExternal TcStrict false true.
  Definition B := cls "B" [with_names None ["zed"] (fld "z" TInt); flat (fld "rest" (TDict DkDict TString TAny))].
  Definition C := cls "C" [fld "p" TInt; flat (fld "a" (TClass "A")); flat (fld "b" (TClass "B")); flat (fld "more" (TBare (BDict DkDict)))].
  Definition PP := prog [A; B; C] [].
  Definition data : list (pyval * pyval) :=
    [(VStr "x", VInt 1); (VStr "p", VInt 2); (VStr "u", VInt 9); (VStr "why", VInt 3); (VStr "zed", VInt 4); (VInt 7, VInt 8)].
  Definition out : list (string * pyval) :=
    [("p", VInt 2); ("a", VObj "A" [("x", VInt 1); ("y", VInt 3)]);
     ("b", VObj "B" [("z", VInt 4); ("rest", VMap MDict [(VStr "u", VInt 9); (VInt 7, VInt 8)])]); ("more", VMap MDict [(VStr "u", VInt 9); (VInt 7, VInt 8)])].
  Example reads : from_dict PP W0 [] 20 (TagExternal, TClass "C") (VMap MDict data) None None = Ok (VObj "C" out).
  Proof. vm_compute. reflexivity. Qed.
  Lemma tgC : targets PP (TClass "C") C.
  Proof. exists "C". repeat split. Qed.
  Lemma dlC : dictlike C.
  Proof. split; [reflexivity|]. repeat constructor; simpl; intuition discriminate. Qed.
  Lemma nmC : names_ok PP C.
  Proof. apply (names_okb_ok PP C [TClass "C"; TInt; TClass "A"; TClass "B"; TBare (BDict DkDict); TDict DkDict TString TAny; TString; TAny]); vm_compute; reflexivity. Qed.

  (** [A] is read from its own entries only, so that its deny_unknown_fields does not see the others ... *)
  Example C60_ex1 : exists v, slookup "a" out = Some v /\
    from_dict PP W0 [] 20 (TagExternal, TClass "A") (VMap MDict [(VStr "x", VInt 1); (VStr "why", VInt 3)]) (Some true) None = Ok v.
  Proof.
    destruct (C60_part PP W0 [] 20 TagExternal TagExternal (TClass "C") C MDict data None None (VObj "C" out) (flat (fld "a" (TClass "A"))) "A" A
      tgC eq_refl dlC eq_refl nmC ltac:(simpl; auto) eq_refl ltac:(repeat split; discriminate) eq_refl eq_refl eq_refl eq_refl eq_refl reads) as (attrs & v & p & E & L & PR & F).
    assert (attrs = out) by (injection E as ->; reflexivity). subst attrs. exists v. split; [exact L|].
    assert (NG : ~ gathers PP A) by (rewrite <- has_flatP; discriminate). assert (GC : gathers_itself C) by (apply direct_flatP; reflexivity).
    assert (KA : forall x, key_of PP W0 A x <-> key_in PP x ["x"; "why"] = true) by (intros x; symmetry; apply known_keys; vm_compute; reflexivity).
    assert (PX : forall kv, p kv = key_in PP (fst kv) ["x"; "why"]).
    { intros kv. destruct (key_in PP (fst kv) ["x"; "why"]) eqn:Q; [apply PR; left; now apply KA|].
      destruct (p kv) eqn:R; [|reflexivity]. apply PR in R as [R|[_ [R|R]]]; [apply KA in R; congruence|contradiction|contradiction]. }
    rewrite (filter_ext _ _ PX) in F. exact F.
  Qed.
  (** ... and [B] from its own and those that are nobody's. *)
  Example C60_ex2 x : gets PP W0 C B x <-> key_in PP x ["z"; "zed"] = true \/ key_in PP x ["p"; "x"; "why"; "z"; "zed"] = false.
  Proof.
    unfold gets. rewrite <- (known_keys PP W0 B ["z"; "zed"] x) by (vm_compute; reflexivity).
    rewrite <- (known_keys PP W0 C ["p"; "x"; "why"; "z"; "zed"] x) by (vm_compute; reflexivity).
    rewrite <- !has_flatP, not_true_iff_false. assert (E : has_flat PP (class_fuel PP) B = true) by reflexivity. rewrite E. tauto.
  Qed.

  Example C12_ex1 : exists p, slookup "more" out = Some (VMap MDict (filter p data)) /\ forall kv, p kv = true <-> ~ key_of PP W0 C (fst kv).
  Proof.
    destruct (C12_collects PP W0 [] 20 TagExternal (TClass "C") C MDict data None None (VObj "C" out) (flat (fld "more" (TBare (BDict DkDict))))
      tgC dlC ltac:(simpl; auto) eq_refl ltac:(split; reflexivity) reads) as (attrs & p & E & L & H).
    assert (attrs = out) by (injection E as ->; reflexivity). subst attrs. eauto.
  Qed.

  (** Two dicts next to a flattened dataclass: declared entries win, then the first dict. *)
  Definition D := cls "D" [flat (fld "m1" (TDict DkDict TString TAny)); fld "p" TInt; flat (fld "a" (TClass "A")); flat (fld "m2" (TBare (BDict DkDict)))].
  Definition PD := prog [A; D] [].
  Definition od m1 m2 := [("m1", dict m1); ("p", VInt 2); ("a", VObj "A" [("x", VInt 1); ("y", VInt 3)]); ("m2", dict m2)].
  Definition od1 := od [("x", VInt 7); ("k", VInt 8)] [("p", VInt 4); ("k", VInt 9); ("j", VInt 6)].
  Example C12_ex2 x : to_dict PD W0 [] 20 (VObj "D" od1) None None None false = Ok x ->
    exists kvs, x = VMap MDict kvs /\ skey PD kvs "x" = Some (VInt 1) /\ skey PD kvs "p" = Some (VInt 2) /\ skey PD kvs "why" = Some (VInt 3) /\
      skey PD kvs "k" = Some (VInt 8) /\ skey PD kvs "j" = Some (VInt 6) /\ skey PD kvs "y" = None.
  Proof.
    intros H. destruct (C12_precedence PD W0 [] 18 "D" D od1 (od [] []) None None None false x eq_refl eq_refl eq_refl Logic.I) as (kvs & kvs0 & ls & -> & E & F & L).
    - intros f I _ BD. destruct I as [<-|[<-|[<-|[<-|[]]]]]; try (split; reflexivity); exfalso.
      + inversion BD as [? [X _]|? ? ? ? [X _]]; subst; discriminate X.
      + inversion BD as [? [_ X]|? ? ? g [_ FL] G I BD']; subst; [discriminate X|]. destruct FL as [FL|FL]; [|discriminate FL]. injection FL as <-. injection G as <-.
        destruct I as [<-|[<-|[]]]; inversion BD' as [? [X _]|? ? ? ? [X _]]; subst; discriminate X.
    - intros f I _ [_ FD]. destruct I as [<-|[<-|[<-|[<-|[]]]]]; try discriminate FD; repeat split.
    - intros a. destruct (in_dec string_dec a ["m1"; "m2"]) as [I|N].
      + right. split; [intros []|]. intros f I' <-. destruct I' as [<-|[<-|[<-|[<-|[]]]]]; try (split; reflexivity); exfalso; simpl in I; intuition discriminate.
      + left. unfold od1, od. cbn [slookup]. repeat match goal with |- context [String.eqb ?x ?y] => destruct (String.eqb_spec x y) as [<-|]; try reflexivity end; exfalso; apply N; simpl; auto.
    - exact H.
    - exists kvs. split; [reflexivity|]. inversion F as [|? l1 ? ls1 (v1 & S1 & X1) F1]; subst. inversion F1 as [|? l2 ? ls2 (v2 & S2 & X2) F2]; subst. inversion F2; subst.
      assert (E1 : l1 = [(VStr "x", VInt 7); (VStr "k", VInt 8)]) by (revert S1 X1; vm_compute; intros S1; injection S1 as <-; intros [m X]; injection X as _ <-; reflexivity).
      assert (E2 : l2 = [(VStr "p", VInt 4); (VStr "k", VInt 9); (VStr "j", VInt 6)]) by (revert S2 X2; vm_compute; intros S2; injection S2 as <-; intros [m X]; injection X as _ <-; reflexivity).
      assert (E0 : kvs0 = [(VStr "p", VInt 2); (VStr "x", VInt 1); (VStr "why", VInt 3)]) by (revert E; vm_compute; congruence). subst.
      rewrite !L. repeat split.
  Qed.
  Example C12_run2 : exists x, to_dict PD W0 [] 20 (VObj "D" od1) None None None false = Ok x.
  Proof. eexists. vm_compute. reflexivity. Qed.
End PartEx.

Print Assumptions C60_part.
Print Assumptions C12_collects.
Print Assumptions C12_precedence.
