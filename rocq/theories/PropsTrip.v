(** Round trip properties of the public functions: C01, C02, C28, C36 (what is true of it), C40 and
    the other formats. *)
From Coq Require Import String List ZArith Bool Lia Permutation DecimalString DecimalZ DecimalPos SpecFloat.
From Verif Require Import Base PyVal PyType Program Compat Syntax SeRender DeRender Eval Formats Facts Mono Ex Spec Cover SeRT DeRT SpecFmt Transport RoundTrip Decide.
Import ListNotations.
Open Scope string_scope.
Open Scope list_scope.

Lemma Forall2_len {A B} (R : A -> B -> Prop) l l' : Forall2 R l l' -> List.length l = List.length l'.
Proof. induction 1; cbn; congruence. Qed.

(** Values that are the same up to the order of mapping entries are equal in the sense of Python's ==,
    provided the value is equal to itself (no NaN). *)
Lemma eqv_same P ord : forall n v, vsize v <= n -> forall v', same ord v v' -> forall u, eqv P u v = true -> eqv P u v' = true.
Proof.
  unfold eqv. induction n; intros v Hn v' S u E; [destruct v; simpl in Hn; lia|]. inversion S; subst; auto.
  - assert (IH : forall x y u, In x l -> same ord x y -> py_eqb (enum_scalar P) u x = true -> py_eqb (enum_scalar P) u y = true).
    { intros x y w Hx Sx. apply (IHn x); auto. pose proof (vsize_seq k l x Hx). lia. }
    destruct u; cbn [py_eqb scalar] in E |- *; try discriminate; try (now destruct (scalar _ _); discriminate).
    all: try (destruct (enum_scalar P c m); discriminate).
    apply andb_prop in E as [E E3]. apply andb_prop in E as [E1 E2].
    rewrite E1. apply Nat.eqb_eq in E2. rewrite E2, (Forall2_len _ _ _ H), Nat.eqb_refl. cbn [andb].
    destruct (is_setkind k0).
    + rewrite forallb_forall in E3 |- *. intros x Hx. specialize (E3 _ Hx). apply existsb_exists in E3 as [y [Hy Ey]].
      destruct (Forall2_In_l _ _ _ _ H Hy) as [y' [Hy' Sy]]. apply existsb_exists. exists y'. split; auto. eapply IH; eauto.
    + clear -H E3 IH. revert l0 E3. induction H; intros [|a r] E; try discriminate; auto. apply andb_prop in E as [E1 E2].
      rewrite (IH x y a (or_introl eq_refl) H E1). cbn [andb]. apply IHForall2; auto. intros; eapply IH; eauto. now right.
  - assert (IH : forall x y u, In x l -> same ord (snd x) y -> py_eqb (enum_scalar P) u (snd x) = true -> py_eqb (enum_scalar P) u y = true).
    { intros x y w Hx Sx. apply (IHn (snd x)); auto. pose proof (proj2 (vsize_map m l x Hx)). lia. }
    destruct u; cbn [py_eqb scalar] in E |- *; try discriminate; try (now destruct (scalar _ _); discriminate).
    all: try (destruct (enum_scalar P c m0); discriminate).
    apply andb_prop in E as [E1 E2]. apply Nat.eqb_eq in E1.
    assert (LL : List.length l = List.length l').
    { rewrite (Forall2_len _ _ _ H). destruct H0 as [->|[_ PP]]; auto. now apply Permutation_length. }
    rewrite E1, LL, Nat.eqb_refl. cbn [andb]. rewrite forallb_forall in E2 |- *. intros [a b] Hab. specialize (E2 _ Hab). cbv beta iota in E2.
    apply existsb_exists in E2 as [[a' b'] [Hy Ey]]. apply andb_prop in Ey as [Ea Eb].
    destruct (Forall2_In_l _ _ _ _ H Hy) as [[a'' b''] [Hy' [Fy Sy]]]. cbn [fst snd] in Fy, Sy. subst a''.
    apply existsb_exists. exists (a', b''). split.
    { destruct H0 as [->|[_ PP]]; auto. eapply Permutation_in; eauto. }
    rewrite Ea. cbn [andb]. exact (IH (a', b') b'' b Hy Sy Eb).
  - assert (IH : forall x y u, In x l -> same ord (snd x) y -> py_eqb (enum_scalar P) u (snd x) = true -> py_eqb (enum_scalar P) u y = true).
    { intros x y w Hx Sx. apply (IHn (snd x)); auto. pose proof (vsize_obj c l x Hx). lia. }
    destruct u; cbn [py_eqb scalar] in E |- *; try discriminate; try (now destruct (scalar _ _); discriminate).
    all: try (destruct (enum_scalar P c0 m); discriminate).
    apply andb_prop in E as [E1 E2]. rewrite E1. cbn [andb]. clear -H E2 IH. revert l0 E2. induction H; intros [|[a1 a2] r] E; try discriminate; auto.
    destruct x as [x1 x2], y as [y1 y2]. destruct H as [Hf Hs]. cbn [fst snd] in Hf, Hs. subst y1. apply andb_prop in E as [E E2]. apply andb_prop in E as [E1 E3].
    rewrite E1, (IH (x1, x2) y2 a2 (or_introl eq_refl) Hs E3). cbn [andb]. apply IHForall2; auto. intros; eapply IH; eauto. now right.
Qed.

Lemma fmt_ok_false P t : fmt_ok false P false t.
Proof. intros s _. destruct s; auto; try (destruct p; auto; discriminate); intros; discriminate. Qed.
Lemma class_fmt_false P d : class_fmt false false P false d.
Proof.
  split; [intros; apply fmt_ok_false|]. intros o o' S E. now rewrite (same_false _ o (le_n _) o' S) in *.
Qed.

(** Data that survives: scalars, lists (or tuples) and dicts with str keys *)
Fixpoint robust (k : seqkind) (v : pyval) : bool :=
  match v with
  | VNone | VBool _ | VInt _ | VFloat _ | VStr _ => true
  | VSeq KList l => match k with KList => forallb (robust k) l | _ => false end
  | VSeq KTuple l => match k with KTuple => forallb (robust k) l | _ => false end
  | VMap MDict l => forallb (fun kv => match kv with (VStr _, x) => robust k x | _ => false end) l
  | _ => false
  end.
Lemma robust_survives ord txt k : forall n v, vsize v <= n -> robust k v = true -> survives ord txt (Some k) v.
Proof.
  unfold survives. induction n; intros v Hn R y N; [destruct v; simpl in Hn; lia|]. inversion N; subst; try constructor.
  - discriminate.
  - assert (k' = k0 /\ forallb (robust k) l = true) as [-> A].
    { destruct H as [->| ->]; cbn [robust] in R; destruct k; try discriminate; split; auto; destruct H1 as [H1|H1]; congruence. }
    constructor. assert (IH : forall x x', In x l -> Norm ord txt (Some k) x x' -> same ord x x').
    { intros x x' Hx. apply IHn; [pose proof (vsize_seq k0 l x Hx); lia|]. rewrite forallb_forall in A. auto. }
    clear -H2 IH. induction H2; constructor; [apply IH; auto; now left|]. apply IHForall2. intros; apply IH; auto. now right.
  - cbn [robust] in R. rewrite forallb_forall in R. apply S_map with (l1 := l1); auto.
    assert (IH : forall x x', In x l -> nkey txt (fst x) (fst x') /\ Norm ord txt (Some k) (snd x) (snd x') -> fst x' = fst x /\ same ord (snd x) (snd x')).
    { intros [a b] [a' b'] Hx [Na Nb]. specialize (R _ Hx). cbn [fst snd] in *. destruct a; try discriminate. split.
      - inversion Na; subst; auto. contradiction.
      - apply IHn; auto. pose proof (proj2 (vsize_map MDict l _ Hx)). cbn [snd] in *. lia. }
    clear -H IH. induction H; constructor; [apply IH; auto; now left|]. apply IHForall2. intros; apply IH; auto. now right.
Qed.

Definition fmt_okb (txt : bool) (P : program) (hook : bool) (t : pytype) : bool :=
  forallb (fun s => match s with
    | TPrimSub _ PFloat => negb hook
    | TCounter a => negb txt || text_key P a
    | TDict _ a _ => negb txt || text_key P a || tyb a (TPrim PInt)
    | _ => true end) (subs t).
Lemma fmt_okb_ok txt P hook t : fmt_okb txt P hook t = true -> fmt_ok txt P hook t.
Proof.
  unfold fmt_okb, fmt_ok. rewrite forallb_forall. intros H s Hs. specialize (H s (subs_sound _ _ Hs)). destruct s; auto.
  - destruct p; auto. now rewrite negb_true_iff in H.
  - intros ->. exact H.
  - intros ->. cbn [negb orb] in H. apply orb_prop in H as [H|H]; auto. right. now apply tyb_eq.
Qed.
Lemma class_fmtb_ok ord txt P hook d :
  forallb (fun f => fmt_okb txt P hook (f_type f)) (c_fields d) = true -> (forall o, c_post d o = Ok o) -> class_fmt ord txt P hook d.
Proof. rewrite forallb_forall. intros H Hp. split; [intros f Hf _; apply fmt_okb_ok; auto|auto]. Qed.

Section Props.
  Variables (P : program) (W : world) (K : list (tagging * pytype)).
  (** no globally registered class serializers *)
  Hypothesis NoSers : p_sers P = [].
  Hypothesis NoDes : p_des P = [].

  (** C01.  [ro], [rc], [skip]: reuse_instances, convert_sets, skip_none of to_dict; [ro']:
      reuse_instances of from_dict.  [wt … skip …] demands, with skip_none=True, that fields holding
      None may be absent. *)
  Theorem C01_dict_round_trip c d attrs ro rc skip cc ro' tg :
    get_class P c = Some d ->
    wt P W skip (fun _ => True) (fun v => plain v = true) (VObj c attrs) (TClass c) ->
    no_union cc ->
    (flag ro (c_reuse d) = true -> flag ro' (c_reuse d) = true) ->
    exists x N, forall n, N <= n ->
      to_dict P W K n (VObj c attrs) cc ro rc skip = Ok x /\
      from_dict P W K n (tg, TClass c) x ro' None = Ok (VObj c attrs).
  Proof.
    intros Hd HW NU HR.
    destruct (class_trip P W K NoSers NoDes false false None skip (fun _ => True) c d attrs true ro rc skip cc ro' None tg) as [x [X1 [_ X2]]]; auto; try discriminate.
    - intros d' _. apply class_fmt_false.
    - eapply wt_mono; [..|apply le_n|exact HW]; auto. apply plain_survives.
    - destruct (X2 x) as [v' [S X3]]; [now constructor|]. apply same_false with (1 := le_n _) in S. subst v'.
      destruct (ev_and _ _ X1 X3) as [N HN]. exists x, N. exact HN.
  Qed.

  (** C02 *)
  Theorem C02_tuple_round_trip c d attrs ro rc cc ro' tg :
    get_class P c = Some d ->
    wt P W false tuple_class (fun v => plain v = true) (VObj c attrs) (TClass c) ->
    no_union cc ->
    (flag ro (c_reuse d) = true -> flag ro' (c_reuse d) = true) ->
    exists x N, forall n, N <= n ->
      to_tuple P W K n (VObj c attrs) cc ro rc false = Ok x /\
      from_tuple P W K n (tg, TClass c) x ro' None = Ok (VObj c attrs).
  Proof.
    intros Hd HW NU HR.
    destruct (class_trip P W K NoSers NoDes false false None false tuple_class c d attrs false ro rc false cc ro' None tg) as [x [X1 [_ X2]]]; auto; try discriminate.
    - intros d' _. apply class_fmt_false.
    - eapply wt_mono; [..|apply le_n|exact HW]; auto. apply plain_survives.
    - destruct (X2 x) as [v' [S X3]]; [now constructor|]. apply same_false with (1 := le_n _) in S. subst v'.
      destruct (ev_and _ _ X1 X3) as [N HN]. exists x, N. exact HN.
  Qed.

  (** * Formats *)

  (** What is assumed of a format library: what it writes, it reads back up to [Norm]. *)
  Definition codec_law (ord txt : bool) (seq : option seqkind) (J : codec) : Prop :=
    forall x s, dumps J x = Ok s -> exists y, loads J s = Ok y /\ Norm ord txt seq x y.

  Lemma num_float_id f : num_float P W (VFloat f) = Some (Ok (VFloat f)).
  Proof. reflexivity. Qed.
  Lemma json_hook_float f : deserialize_json_numbers P W (VFloat f) = Ok (VFloat f).
  Proof. unfold deserialize_json_numbers. now rewrite num_float_id. Qed.
  Lemma yaml_hook_float f : deserialize_yaml_numbers P W (VFloat f) = Ok (VFloat f).
  Proof. unfold deserialize_yaml_numbers. now rewrite num_float_id. Qed.

  Lemma format_trip ord txt seq J sk (Q : classdef -> Prop) c d attrs nm skip cc dn tg :
    codec_law ord txt seq J ->
    (forall h, dn = Some h -> forall f, h (VFloat f) = Ok (VFloat f)) ->
    (txt = true -> forall z, w_int_of_str W (z_str z) = Some z) ->
    (skip = true -> sk = true) ->
    (forall d, Q d -> class_fmt ord txt P (has_some dn) d) ->
    (nm = false -> forall d, Q d -> tuple_class d) ->
    get_class P c = Some d -> wt P W sk Q (survives ord txt seq) (VObj c attrs) (TClass c) -> no_union cc ->
    exists x v' N, same ord (VObj c attrs) v' /\ forall n, N <= n ->
      run P W K n (QToObj (VObj c attrs) nm (Some false) (Some true) skip cc) = Ok x /\
      forall s, dumps J x = Ok s ->
        (y <- loads J s ;; run P W K n (QFromObj (tg, TClass c) y nm (Some false) dn)) = Ok v'.
  Proof.
    intros HJ HF HI HS HQ HT Hd HW NU.
    destruct (class_trip P W K NoSers NoDes ord txt seq sk Q c d attrs nm (Some false) (Some true) skip cc (Some false) dn tg) as [x [X1 [_ X2]]]; auto; try discriminate.
    exists x. destruct (dumps J x) as [s| |] eqn:D.
    - destruct (HJ _ _ D) as [y [L N]]. destruct (X2 y N) as [v' [S X3]]. exists v'.
      destruct (ev_and _ _ X1 X3) as [m HN]. exists m. split; auto. intros n Hn. destruct (HN n Hn) as [A B]. split; auto.
      intros s' E. injection E as <-. rewrite L. exact B.
    - destruct X1 as [m X1]. exists (VObj c attrs), m. split; [constructor|]. intros n Hn. split; auto. discriminate.
    - destruct X1 as [m X1]. exists (VObj c attrs), m. split; [constructor|]. intros n Hn. split; auto. discriminate.
  Qed.

  (** C40.  JSON: keys become text, tuples become lists.  int() reads back what str(int) wrote. *)
  Theorem C40_json_round_trip J c d attrs skip cc tg coerce :
    codec_law false true (Some KList) J ->
    (forall z, w_int_of_str W (z_str z) = Some z) ->
    get_class P c = Some d ->
    wt P W skip (class_fmt false true P coerce) (survives false true (Some KList)) (VObj c attrs) (TClass c) ->
    no_union cc ->
    exists x N, forall n, N <= n ->
      to_json P W K J n (VObj c attrs) cc skip = dumps J x /\
      forall s, dumps J x = Ok s -> from_json P W K J n (tg, TClass c) s coerce = Ok (VObj c attrs).
  Proof.
    intros HJ HI Hd HW NU. set (dn := if coerce then Some (deserialize_json_numbers P W) else None).
    assert (Ehk : has_some dn = coerce) by (unfold dn; now destruct coerce).
    destruct (format_trip false true (Some KList) J skip (class_fmt false true P coerce) c d attrs true skip cc dn tg) as (x & v' & N & S & X); auto; try discriminate.
    - intros h Eh f. unfold dn in Eh. destruct coerce; [|discriminate]. injection Eh as <-. apply json_hook_float.
    - intros d' H. now rewrite Ehk.
    - apply same_false with (1 := le_n _) in S. subst v'. exists x, N. intros n Hn. destruct (X n Hn) as [A B]. unfold to_json, to_dict. rewrite A. split; auto.
  Qed.

  (** C28: like C40, for classes whose dicts have int keys or enum keys with integer values; [int_keys]
      says so for one annotation. *)
  Definition int_keys (t : pytype) : Prop :=
    forall s, sub_ty s t ->
      match s with
      | TDict _ a _ => a = TPrim PInt \/
          exists c e, a = TEnum c /\ get_enum P c = Some e /\ forall m v, In (m, v) (e_members e) -> exists z, v = VInt z
      | TCounter _ | TPrimSub _ PFloat => False
      | _ => True
      end.
  Theorem C28_json_int_keys J c d attrs skip cc tg coerce :
    codec_law false true (Some KList) J ->
    (forall z, w_int_of_str W (z_str z) = Some z) ->
    get_class P c = Some d ->
    wt P W skip (fun d => forall f, In f (c_fields d) -> int_keys (f_type f)) (survives false true (Some KList)) (VObj c attrs) (TClass c) ->
    no_union cc ->
    exists x N, forall n, N <= n ->
      to_json P W K J n (VObj c attrs) cc skip = dumps J x /\
      forall s, dumps J x = Ok s -> from_json P W K J n (tg, TClass c) s coerce = Ok (VObj c attrs).
  Proof.
    intros HJ HI Hd HW NU. eapply C40_json_round_trip; eauto. eapply wt_mono; [..|apply le_n|exact HW]; auto.
    intros d' H. split.
    - intros f Hf _ s Hs. specialize (H f Hf s Hs). destruct s; auto; try contradiction; [destruct p; auto; contradiction|].
      intros _. destruct H as [->|[c' [e [-> [He Hi]]]]]; [now right|left]. cbn [text_key]. rewrite He. apply orb_true_intro. right.
      apply forallb_forall. intros [m v] Hm. destruct (Hi m v Hm) as [z ->]. reflexivity.
    - intros o o' S E. now rewrite (same_false _ o (le_n _) o' S) in *.
  Qed.

  (** C41.  YAML: mappings may come back in another order. *)
  Theorem C41_yaml_round_trip J c d attrs skip cc tg coerce :
    codec_law true false (Some KList) J ->
    get_class P c = Some d ->
    wt P W skip (class_fmt true false P coerce) (survives true false (Some KList)) (VObj c attrs) (TClass c) ->
    no_union cc ->
    exists x v' N, same true (VObj c attrs) v' /\ forall n, N <= n ->
      to_yaml P W K J n (VObj c attrs) cc skip = dumps J x /\
      forall s, dumps J x = Ok s -> from_yaml P W K J n (tg, TClass c) s coerce = Ok v'.
  Proof.
    intros HJ Hd HW NU. set (dn := if coerce then Some (deserialize_yaml_numbers P W) else None).
    assert (Ehk : has_some dn = coerce) by (unfold dn; now destruct coerce).
    destruct (format_trip true false (Some KList) J skip (class_fmt true false P coerce) c d attrs true skip cc dn tg) as (x & v' & N & S & X); auto; try discriminate.
    - intros h Eh f. unfold dn in Eh. destruct coerce; [|discriminate]. injection Eh as <-. apply yaml_hook_float.
    - intros d' H. now rewrite Ehk.
    - exists x, v', N. split; auto. intros n Hn. destruct (X n Hn) as [A B]. unfold to_yaml, to_json, to_dict. rewrite A. split; auto.
  Qed.

  (** C42.  TOML: the same; skip_none is True unless given. *)
  Theorem C42_toml_round_trip J c d attrs skip cc tg :
    codec_law true false (Some KList) J ->
    get_class P c = Some d ->
    wt P W skip (class_fmt true false P false) (survives true false (Some KList)) (VObj c attrs) (TClass c) ->
    no_union cc ->
    exists x v' N, same true (VObj c attrs) v' /\ forall n, N <= n ->
      to_toml P W K J n (VObj c attrs) cc skip = dumps J x /\
      forall s, dumps J x = Ok s -> from_toml P W K J n (tg, TClass c) s = Ok v'.
  Proof.
    intros HJ Hd HW NU.
    destruct (format_trip true false (Some KList) J skip (class_fmt true false P false) c d attrs true skip cc None tg) as (x & v' & N & S & X); auto; try discriminate.
    exists x, v', N. split; auto. intros n Hn. destruct (X n Hn) as [A B]. unfold to_toml, to_json, to_dict. rewrite A. split; auto.
  Qed.

  (** C43.  MsgPack, as mappings or (named=False) as arrays: lists and tuples are not told apart. *)
  Theorem C43_msgpack_round_trip J c d attrs cc tg (named : bool) :
    codec_law false false (Some KTuple) J ->
    get_class P c = Some d ->
    wt P W false (fun d => named = false -> tuple_class d) (survives false false (Some KTuple)) (VObj c attrs) (TClass c) ->
    no_union cc ->
    exists x N, forall n, N <= n ->
      to_msgpack P W K J n (VObj c attrs) cc named = dumps J x /\
      forall s, dumps J x = Ok s -> from_msgpack P W K J n (tg, TClass c) s named = Ok (VObj c attrs).
  Proof.
    intros HJ Hd HW NU.
    destruct (format_trip false false (Some KTuple) J false (fun d => named = false -> tuple_class d) c d attrs named false cc None tg) as (x & v' & N & S & X); auto; try discriminate.
    - intros d' _. apply class_fmt_false.
    - apply same_false with (1 := le_n _) in S. subst v'. exists x, N. intros n Hn. destruct (X n Hn) as [A B].
      unfold to_msgpack, from_msgpack, to_dict, to_tuple, from_dict, from_tuple. destruct named; rewrite A; split; auto.
  Qed.

  (** C44.  pickle of the dict form *)
  Theorem C44_pickle_round_trip J c d attrs cc tg skip :
    codec_law false false None J ->
    get_class P c = Some d ->
    wt P W false (fun _ => True) (fun v => plain v = true) (VObj c attrs) (TClass c) ->
    no_union cc ->
    exists x N, forall n, N <= n ->
      to_pickle P W K J n (VObj c attrs) cc skip = dumps J x /\
      forall s, dumps J x = Ok s -> from_pickle P W K J n (tg, TClass c) s = Ok (VObj c attrs).
  Proof.
    intros HJ Hd HW NU.
    destruct (format_trip false false None J false (fun _ => True) c d attrs true false cc None tg) as (x & v' & N & S & X); auto; try discriminate.
    - intros d' _. apply class_fmt_false.
    - eapply wt_mono; [..|apply le_n|exact HW]; auto. apply plain_survives.
    - apply same_false with (1 := le_n _) in S. subst v'. exists x, N. intros n Hn. destruct (X n Hn) as [A B].
      unfold to_pickle, to_dict. rewrite A; split; auto.
  Qed.
End Props.

(** * Examples: a recursive class that uses most supported annotations *)
Module TripEx.
  Definition leaf := cls "Leaf" [with_names (Some "Name") [] (fld "name" TString)].
  Definition other := cls "Other" [fld "n" TInt; with_default (VInt 7) (fld "m" (TOpt TInt))].
  Definition tree := cls "Tree"
    [fld "val" TInt;
     with_names None ["children"; "sub"] (fld "size" TInt);
     fld "kids" (TList LList (TClass "Tree"));
     fld "tag" (TOpt TString);
     fld "pick" (TUnion [TClass "Leaf"; TClass "Other"; TInt]);
     fld "table" (TDict DkDict TInt (TSet SkSet TString));
     fld "colors" (TDict DkDefault (TEnum "Color") (TList LList TInt));
     fld "when" (TDate "datetime");
     fld "path" (TStr "Path");
     fld "lit" (TLit [LStr "a"; LInt 3]);
     fld "pair" (TTuple [TFloat; TVarTuple (TNewType "Uid" PInt)]);
     fld "count" (TCounter TString);
     fld "any" TAny;
     with_default (VInt 0) (with_skip true false false (fld "cache" TInt))].
  Definition box := clsx "Box" [fld "inner" (TClass "Pt")] None TagExternal TcStrict true false.
  Definition pt := clsx "Pt" [fld "x" TInt; fld "shape" (TUnion [TClass "Leaf"; TClass "Other"])]
    (Some "pascalcase") (TagAdjacent "t" "c") TcCoerce false true.
  Definition p := prog [leaf; other; tree; box; pt] [mkEnum "Color" "Color" None [("RED", VInt 1); ("BLUE", VInt 2)]].

  (** int() of text as in the standard library *)
  Definition w : world :=
    mkWorld (w_case W0) (w_ctor W0) (w_iso W0) (w_float_of_str W0)
      (fun s => option_map Z.of_int (NilZero.int_of_string s)) (w_str W0) (w_pick W0).
  Lemma int_text z : w_int_of_str w (z_str z) = Some z.
  Proof.
    cbn [w w_int_of_str]. unfold z_str. rewrite NilZero.isi.
    - cbn [option_map]. now rewrite of_to.
    - destruct z; cbn; [discriminate| |discriminate]. pose proof (DecimalPos.Unsigned.to_uint_nonnil p0). congruence.
    - destruct z; cbn; [discriminate|discriminate|]. pose proof (DecimalPos.Unsigned.to_uint_nonnil p0). congruence.
  Qed.

  Lemma frag : forall d, In d (p_classes p) -> frag_class p w d.
  Proof. apply (frag_classesb_ok p w 3). vm_compute. reflexivity. Qed.

  Definition one := S754_finite false 1 0.
  Definition node (kids : list pyval) (tag pick : pyval) : pyval :=
    VObj "Tree" [("val", VInt 5); ("size", VInt 8); ("kids", vlist kids); ("tag", tag); ("pick", pick);
      ("table", VMap MDict [(VInt 1, VSeq KSet [VStr "x"; VStr "y"]); (VInt (-20), VSeq KSet [])]);
      ("colors", VMap (MDefault "list") [(VEnum "Color" "BLUE", vlist [VInt 3])]);
      ("when", VDate "datetime" "2024-01-01T00:00:00"); ("path", VInst "Path" "/tmp"); ("lit", VInt 3);
      ("pair", VSeq KTuple [VFloat one; VSeq KTuple [VInt 1; VInt 2]]);
      ("count", VMap MCounter [(VStr "a", VInt 2)]);
      ("any", vlist [VNone; dict [("k", VBool true)]]);
      ("cache", VInt 0)].
  Definition obj := node [node [] VNone (VObj "Leaf" [("name", VStr "l")]); node [] (VStr "t") (VInt 4)]
                         (VStr "root") (VObj "Other" [("n", VInt 1); ("m", VInt 3)]).
  Definition bx := VObj "Box" [("inner", VObj "Pt" [("x", VInt 1); ("shape", VObj "Leaf" [("name", VStr "l")])])].

  (** C01, C44 *)
  Example obj_wt : wt p w true (fun _ => True) (fun v => plain v = true) obj (TClass "Tree").
  Proof. apply (wtb_ok p w true _ _ plain frag (fun _ _ => I) (fun _ H => H) 20). vm_compute. reflexivity. Qed.
  Example obj_skip_none :
    exists x N, forall n, N <= n -> to_dict p w [] n obj None None None true = Ok x /\
      from_dict p w [] n (TagExternal, TClass "Tree") x None None = Ok obj.
  Proof. apply (C01_dict_round_trip p w [] eq_refl eq_refl "Tree" tree); auto. apply obj_wt. exact I. Qed.
  (** what to_dict returns *)
  Example leaf_form : to_dict p w [] 20 bx None None None false =
    Ok (dict [("X", VInt 1); ("Shape", dict [("c", dict [("Name", VStr "l")]); ("t", VStr "Leaf")])]).
  Proof. vm_compute. reflexivity. Qed.

  (** C02, C43 *)
  Definition bx' := VObj "Box" [("inner", VObj "Pt" [("x", VInt 1); ("shape", VObj "Other" [("n", VInt 1); ("m", VNone)])])].
  Definition p' := prog [leaf; other; box; pt] [].
  Lemma frag' : forall d, In d (p_classes p') -> frag_class p' w d.
  Proof. apply (frag_classesb_ok p' w 3). vm_compute. reflexivity. Qed.
  Example bx_wt : wt p' w false tuple_class (fun v => plain v = true) bx' (TClass "Box").
  Proof.
    apply (wtb_ok p' w false _ _ plain frag') with (n := 20); [|auto|vm_compute; reflexivity].
    apply Forall_forall. cbn. repeat (apply Forall_cons; [repeat constructor|]). constructor.
  Qed.
  Example bx_tuple :
    exists x N, forall n, N <= n -> to_tuple p' w [] n bx' None None None false = Ok x /\
      from_tuple p' w [] n (TagExternal, TClass "Box") x None None = Ok bx'.
  Proof. apply (C02_tuple_round_trip p' w [] eq_refl eq_refl "Box" box); auto. apply bx_wt. exact I. Qed.

  (** C01, C02, C40: fields with functions of their own.  hue: int = field(serializer=lambda n: "#" + str(n), deserializer=lambda s: int(s[1:])),
      bits: set[int] as a number with those bits, at: Optional[datetime] = field(default=None, serializer=..., deserializer=..., skip_if_default=True) *)
  Definition hue_ser (v : pyval) : res pyval := match v with VInt z => Ok (VStr ("#" ++ z_str z)) | _ => Raise XType end.
  Definition hue_de (x : pyval) : res pyval :=
    match x with
    | VStr (String _ s) => match w_int_of_str w s with Some z => Ok (VInt z) | None => Raise XValue end
    | _ => Raise XType
    end.
  Definition bits_ser (v : pyval) : res pyval := match v with VSeq KSet l => Ok (VInt (fold_right (fun x n => match x with VInt z => 2 ^ z + n | _ => n end)%Z 0%Z l)) | _ => Raise XType end.
  Definition bits_de (x : pyval) : res pyval :=
    match x with VInt z => Ok (VSeq KSet (map VInt (filter (Z.testbit z) [0; 1; 2; 3; 4; 5; 6; 7]%Z))) | _ => Raise XType end.
  Definition at_ser (v : pyval) : res pyval := match v with VDate _ s => Ok (VStr s) | VNone => Ok VNone | _ => Raise XType end.
  Definition at_de (x : pyval) : res pyval := match x with VStr s => Ok (VDate "datetime" s) | VNone => Ok VNone | _ => Raise XType end.
  Definition dot := clsx "Dot"
    [with_names (Some "Hue") [] (with_fns (Some (FFun hue_ser)) (Some (FFun hue_de)) (fld "hue" TInt));
     fld "x" TInt;
     with_fns (Some (FFun bits_ser)) (Some (FFun bits_de)) (fld "bits" (TSet SkSet TInt));
     with_skip_if None false None (Some true) (with_default VNone (with_fns (Some (FFun at_ser)) (Some (FFun at_de)) (fld "at" (TOpt (TDate "datetime")))));
     fld "more" (TList LList (TUnion [TClass "Dot"; TInt]))] None (TagInternal "t") TcStrict false false.
  Definition p2 := prog [dot] [].
  Lemma frag2 : forall d, In d (p_classes p2) -> frag_class p2 w d.
  Proof. apply (frag_classesb_ok p2 w 3). vm_compute. reflexivity. Qed.
  Definition dot1 (z : Z) (at_ : pyval) (more : list pyval) :=
    VObj "Dot" [("hue", VInt z); ("x", VInt 2); ("bits", VSeq KSet [VInt 1; VInt 3]); ("at", at_); ("more", vlist more)].
  Definition dots := dot1 255 VNone [VInt 1; dot1 (-3) (VDate "datetime" "2024-01-01T00:00:00") []].
  Example dots_wt : wt p2 w false (fun _ => True) (fun v => plain v = true) dots (TClass "Dot").
  Proof. apply (wtb_ok p2 w false _ _ plain frag2 (fun _ _ => I) (fun _ H => H) 20). vm_compute. reflexivity. Qed.
  Example dots_trip :
    exists x N, forall n, N <= n -> to_dict p2 w [] n dots None None None false = Ok x /\
      from_dict p2 w [] n (TagExternal, TClass "Dot") x None None = Ok dots.
  Proof. apply (C01_dict_round_trip p2 w [] eq_refl eq_refl "Dot" dot); auto. apply dots_wt. exact I. Qed.
  Example dots_form : to_dict p2 w [] 20 dots None None None false =
    Ok (dict [("Hue", VStr "#255"); ("x", VInt 2); ("bits", VInt 10);
      ("more", vlist [VInt 1; dict [("Hue", VStr "#-3"); ("x", VInt 2); ("bits", VInt 10); ("at", VStr "2024-01-01T00:00:00"); ("more", vlist []); ("t", VStr "Dot")]])]).
  Proof. vm_compute. reflexivity. Qed.

  (** C40, C28, C41, C42: [obj] can be written as JSON, YAML and TOML. *)
  Lemma fmt ord : forall d, In d (p_classes p) -> class_fmt ord true p true d.
  Proof. apply Forall_forall. cbn. repeat (apply Forall_cons; [apply class_fmtb_ok; [vm_compute; reflexivity|reflexivity]|]). constructor. Qed.
  Example obj_json_wt : wt p w true (class_fmt false true p true) (survives false true (Some KList)) obj (TClass "Tree").
  Proof. apply (wtb_ok p w true _ _ (robust KList) frag (fmt false) (fun v => robust_survives _ _ _ _ v (le_n _)) 20). vm_compute. reflexivity. Qed.
  (** A codec that knows one document: [obj] as JSON text "doc" *)
  Fixpoint jnorm (v : pyval) : pyval :=
    match v with
    | VSeq _ l => VSeq KList (map jnorm l)
    | VMap m l => VMap m (map (fun kv => match kv with (a, b) => ((match a with VInt z => VStr (z_str z) | _ => a end), jnorm b) end) l)
    | _ => v
    end.
  Fixpoint jsonable (v : pyval) : bool :=
    match v with
    | VSeq (KList | KTuple) l => forallb jsonable l
    | VMap MDict l => forallb (fun kv => match kv with ((VStr _ | VInt _), b) => jsonable b | _ => false end) l
    | _ => scalar_val v
    end.
  Lemma jnorm_ok : forall n v, vsize v <= n -> jsonable v = true -> Norm false true (Some KList) v (jnorm v).
  Proof.
    induction n; intros v Hn J; [destruct v; simpl in Hn; lia|]. destruct v; try discriminate; try (now constructor).
    - assert (list_or_tuple k /\ forallb jsonable l = true) as [A B] by (destruct k; try discriminate; unfold list_or_tuple; auto).
      cbn [jnorm]. apply N_seq; auto; [now left|]. apply Forall2_map_r, Forall2_same, Forall_forall. intros x Hx. rewrite forallb_forall in B.
      apply IHn; auto. pose proof (vsize_seq k l x Hx). lia.
    - destruct k; try discriminate. cbn [jsonable] in J. rewrite forallb_forall in J. cbn [jnorm].
      eapply N_map; [|now left]. apply Forall2_map_r, Forall2_same, Forall_forall. intros [a b] Hx. specialize (J _ Hx). cbv beta iota in J |- *.
      pose proof (proj2 (vsize_map MDict l _ Hx)). cbn [fst snd] in *.
      destruct a; try discriminate; (split; [now constructor|apply IHn; auto; lia]).
  Qed.
  Definition form := match to_dict p w [] 20 obj None (Some false) (Some true) true with Ok x => x | _ => VNone end.
  Definition json1 : codec := mkCodec (fun x => if val_eqb x form then Ok "doc" else Raise XType)
                                      (fun s => if String.eqb s "doc" then Ok (jnorm form) else Raise XValue).
  Lemma json1_law : codec_law false true (Some KList) json1.
  Proof.
    intros x s. cbn [dumps json1]. destruct (val_eqb x form) eqn:E; [|discriminate]. intros Es. injection Es as <-. apply val_eqb_eq in E. subst x.
    exists (jnorm form). split; [reflexivity|]. apply (jnorm_ok _ _ (le_n _)). vm_compute. reflexivity.
  Qed.
  Example obj_json : to_json p w [] json1 20 obj None true = Ok "doc" /\ from_json p w [] json1 20 (TagExternal, TClass "Tree") "doc" true = Ok obj.
  Proof. split; vm_compute; reflexivity. Qed.
  Lemma fmt_yaml ord : forall d, In d (p_classes p) -> class_fmt ord false p true d.
  Proof. apply Forall_forall. cbn. repeat (apply Forall_cons; [apply class_fmtb_ok; [vm_compute; reflexivity|reflexivity]|]). constructor. Qed.
  Example obj_yaml_wt : wt p w true (class_fmt true false p true) (survives true false (Some KList)) obj (TClass "Tree").
  Proof. apply (wtb_ok p w true _ _ (robust KList) frag (fmt_yaml true) (fun v => robust_survives _ _ _ _ v (le_n _)) 20). vm_compute. reflexivity. Qed.
  Example bx_msgpack_wt : wt p' w false (fun d => false = false -> tuple_class d) (survives false false (Some KTuple)) bx' (TClass "Box").
  Proof.
    apply (wtb_ok p' w false _ _ (robust KTuple) frag') with (n := 20); [|intros v; apply (robust_survives _ _ _ _ v (le_n _))|vm_compute; reflexivity].
    intros d Hd _. revert d Hd. apply Forall_forall. cbn. repeat (apply Forall_cons; [repeat constructor|]). constructor.
  Qed.
End TripEx.

Print Assumptions C01_dict_round_trip.
Print Assumptions C02_tuple_round_trip.
Print Assumptions C28_json_int_keys.
Print Assumptions C40_json_round_trip.
Print Assumptions C41_yaml_round_trip.
Print Assumptions C42_toml_round_trip.
Print Assumptions C43_msgpack_round_trip.
Print Assumptions C44_pickle_round_trip.
Print Assumptions eqv_same.
