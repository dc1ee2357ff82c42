(** Python values. *)
From Coq Require Import String List ZArith Bool Ascii.
From Coq Require Import Floats.SpecFloat.
From Verif Require Import Base.
Import ListNotations.
Open Scope string_scope.
Open Scope list_scope.

(** Binary64 floating point numbers of Python as the standard library's [spec_float]. *)
Definition pyfloat := spec_float.

Inductive seqkind := KList | KTuple | KSet | KFrozen | KDeque.
Inductive mapkind := MDict | MCounter | MDefault (factory : string).

(** Values.  [VSub c v]: instance of a user subclass [c] of a primitive class.
    [VInst k s]: instance of a class of StrSerializableTypes (compat.py:58-74) with its str().
    [VDate k s]: instance of a class of DateTimeTypes (compat.py:77) with its isoformat().
    [VObj c attrs]: dataclass instance with its attributes in field order.
    [VOpaque]: any other object.
    Sets are kept as duplicate free lists in iteration order; object identity is not modelled. *)
Inductive pyval : Type :=
| VNone
| VBool (b : bool)
| VInt (z : Z)
| VFloat (f : pyfloat)
| VStr (s : string)
| VSub (c : string) (v : pyval)
| VSeq (k : seqkind) (l : list pyval)
| VMap (k : mapkind) (l : list (pyval * pyval))
| VObj (c : string) (l : list (string * pyval))
| VEnum (c m : string)
| VInst (k s : string)
| VDate (k s : string)
| VOpaque (c : string) (id : Z).

Section Ind.
  Variable Q : pyval -> Prop.
  Hypothesis HNone : Q VNone.
  Hypothesis HBool : forall b, Q (VBool b).
  Hypothesis HInt : forall z, Q (VInt z).
  Hypothesis HFloat : forall f, Q (VFloat f).
  Hypothesis HStr : forall s, Q (VStr s).
  Hypothesis HSub : forall c v, Q v -> Q (VSub c v).
  Hypothesis HSeq : forall k l, Forall Q l -> Q (VSeq k l).
  Hypothesis HMap : forall k l, Forall (fun kv => Q (fst kv) /\ Q (snd kv)) l -> Q (VMap k l).
  Hypothesis HObj : forall c l, Forall (fun nv => Q (snd nv)) l -> Q (VObj c l).
  Hypothesis HEnum : forall c m, Q (VEnum c m).
  Hypothesis HInst : forall k s, Q (VInst k s).
  Hypothesis HDate : forall k s, Q (VDate k s).
  Hypothesis HOpaque : forall c i, Q (VOpaque c i).
  (** Induction over values with hypotheses for the elements of containers. *)
  Fixpoint pyval_ind' (v : pyval) : Q v :=
    match v with
    | VNone => HNone | VBool b => HBool b | VInt z => HInt z | VFloat f => HFloat f
    | VStr s => HStr s
    | VSub c v => HSub c v (pyval_ind' v)
    | VSeq k l => HSeq k l
        ((fix go l : Forall Q l := match l with
          | [] => Forall_nil _ | x :: r => Forall_cons _ (pyval_ind' x) (go r) end) l)
    | VMap k l => HMap k l
        ((fix go l : Forall (fun kv => Q (fst kv) /\ Q (snd kv)) l := match l with
          | [] => Forall_nil _
          | (a, b) :: r => Forall_cons (a, b) (conj (pyval_ind' a) (pyval_ind' b)) (go r) end) l)
    | VObj c l => HObj c l
        ((fix go l : Forall (fun nv => Q (snd nv)) l := match l with
          | [] => Forall_nil _
          | (n, x) :: r => Forall_cons (n, x) (pyval_ind' x) (go r) end) l)
    | VEnum c m => HEnum c m | VInst k s => HInst k s | VDate k s => HDate k s
    | VOpaque c i => HOpaque c i
    end.
End Ind.

(** Number of constructors of a value, for inductions. *)
Fixpoint vsize (v : pyval) : nat :=
  match v with
  | VSub _ v => S (vsize v)
  | VSeq _ l => S (fold_right (fun x n => vsize x + n) 0 l)
  | VMap _ l => S (fold_right (fun kv n => (vsize (fst kv) + vsize (snd kv)) + n) 0 l)
  | VObj _ l => S (fold_right (fun nv n => vsize (snd nv) + n) 0 l)
  | _ => 1
  end.

(** float(int): round to nearest even in binary64; OverflowError when out of range. *)
Definition float_of_Z (z : Z) : res pyfloat :=
  match binary_normalize 53 1024 z 0 false with
  | S754_infinity _ => Raise XOverflow
  | f => Ok f
  end.

(** int(float): truncation towards zero. *)
Definition Z_of_float (f : pyfloat) : res Z :=
  match f with
  | S754_zero _ => Ok 0%Z
  | S754_infinity _ => Raise XOverflow
  | S754_nan => Raise XValue
  | S754_finite s m e =>
      let a := if (0 <=? e)%Z then (Zpos m * 2 ^ e)%Z else (Zpos m / 2 ^ (- e))%Z in
      Ok (if s then (- a)%Z else a)
  end.

(** int == float *)
Definition Z_eq_float (z : Z) (f : pyfloat) : bool :=
  match f with
  | S754_zero _ => (z =? 0)%Z
  | S754_infinity _ | S754_nan => false
  | S754_finite s m e =>
      let sm := if s then Zneg m else Zpos m in
      if (0 <=? e)%Z then (z =? sm * 2 ^ e)%Z else (z * 2 ^ (- e) =? sm)%Z
  end.

Definition float_truthy (f : pyfloat) : bool :=
  match f with S754_zero _ => false | _ => true end.

(** Scalars for comparison: bool counts as int; subclasses of primitives and enum members with
    a primitive mixin compare like the primitive. *)
Inductive scal := SI (z : Z) | SF (f : pyfloat) | SS (s : string).

Definition scal_eqb (a b : scal) : bool :=
  match a, b with
  | SI x, SI y => (x =? y)%Z
  | SF x, SF y => SFeqb x y
  | SI x, SF y => Z_eq_float x y
  | SF x, SI y => Z_eq_float y x
  | SS x, SS y => String.eqb x y
  | _, _ => false
  end.

Definition seqkind_class (k : seqkind) : nat :=
  match k with KList => 0 | KTuple => 1 | KSet => 2 | KFrozen => 2 | KDeque => 3 end.
Definition is_setkind (k : seqkind) : bool :=
  match k with KSet | KFrozen => true | _ => false end.

Section Eq.
  (** Primitive value of an enum member when its class mixes in a primitive. *)
  Variable es : string -> string -> option scal.

  Fixpoint scalar (v : pyval) : option scal :=
    match v with
    | VBool b => Some (SI (if b then 1 else 0))
    | VInt z => Some (SI z)
    | VFloat f => Some (SF f)
    | VStr s => Some (SS s)
    | VSub _ v => scalar v
    | VEnum c m => es c m
    | _ => None
    end.

  (** Python [==].  Instances of str-serializable and datetime classes are compared by class
      and text; dataclasses by class and fields (dataclass eq=True). *)
  Fixpoint py_eqb (a b : pyval) {struct a} : bool :=
    match scalar a, scalar b with
    | Some x, Some y => scal_eqb x y
    | Some _, None | None, Some _ => false
    | None, None =>
      match a, b with
      | VNone, VNone => true
      | VSeq k l, VSeq k' l' =>
          Nat.eqb (seqkind_class k) (seqkind_class k') &&
          Nat.eqb (List.length l) (List.length l') &&
          (if is_setkind k then forallb (fun x => existsb (fun y => py_eqb x y) l') l
           else (fix leq l l' := match l, l' with
                 | [], [] => true
                 | x :: r, y :: r' => py_eqb x y && leq r r'
                 | _, _ => false end) l l')
      | VMap _ l, VMap _ l' =>
          Nat.eqb (List.length l) (List.length l') &&
          forallb (fun kv => match kv with (k, v) =>
            existsb (fun kv' => match kv' with (k', v') => py_eqb k k' && py_eqb v v' end) l' end) l
      | VObj c l, VObj c' l' =>
          String.eqb c c' &&
          (fix leq l l' := match l, l' with
             | [], [] => true
             | (n, x) :: r, (n', y) :: r' => String.eqb n n' && py_eqb x y && leq r r'
             | _, _ => false end) l l'
      | VEnum c m, VEnum c' m' => String.eqb c c' && String.eqb m m'
      | VInst k s, VInst k' s' => String.eqb k k' && String.eqb s s'
      | VDate k s, VDate k' s' => String.eqb k k' && String.eqb s s'
      | VOpaque c i, VOpaque c' i' => String.eqb c c' && (i =? i')%Z
      | _, _ => false
      end
    end.

  (** Entry of a dict with an equal key. *)
  Fixpoint dget (l : list (pyval * pyval)) (k : pyval) : option pyval :=
    match l with
    | [] => None
    | (k', v) :: r => if py_eqb k' k then Some v else dget r k
    end.
  Definition dmem (l : list (pyval * pyval)) (k : pyval) : bool :=
    match dget l k with Some _ => true | None => false end.

  (** d[k] = v: replace in place (keeping the stored key) or append. *)
  Fixpoint dset (l : list (pyval * pyval)) (k v : pyval) : list (pyval * pyval) :=
    match l with
    | [] => [(k, v)]
    | (k', v') :: r => if py_eqb k' k then (k', v) :: r else (k', v') :: dset r k v
    end.

  Definition vmem (k : pyval) (l : list pyval) : bool := existsb (fun x => py_eqb x k) l.

  (** set(iterable): first of equal elements is kept. *)
  Fixpoint dedup (acc l : list pyval) : list pyval :=
    match l with
    | [] => acc
    | x :: r => dedup (if vmem x acc then acc else acc ++ [x]) r
    end.

  (** bool(v) *)
  Definition truthy (v : pyval) : bool :=
    match scalar v with
    | Some (SI z) => negb (z =? 0)%Z
    | Some (SF f) => float_truthy f
    | Some (SS s) => negb (String.eqb s "")
    | None =>
      match v with
      | VNone => false
      | VSeq _ l => match l with [] => false | _ => true end
      | VMap _ l => match l with [] => false | _ => true end
      | _ => true
      end
    end.
End Eq.
