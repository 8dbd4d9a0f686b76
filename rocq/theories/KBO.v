(** * Model of the linear-time Knuth-Bendix comparison (ORDERINGS/cto_kbolin.c).
    First-order build; executable definitions.

    Simplification: terms are compared as already instantiated (the C code
    dereferences each node with TermDeref on the way down; that is the same
    as comparing the instantiated terms).  Weights are unbounded integers
    (C: long). *)
From Verif Require Import Terms.

(** CompareResult, BASICS/clb_partial_orderings.h:30-45 (values used by the orderings). *)
Inductive cmp := Uncomparable | Equal | Greater | Lesser.

Definition cmp_eqb (a b : cmp) : bool :=
  match a, b with
  | Uncomparable, Uncomparable | Equal, Equal | Greater, Greater | Lesser, Lesser => true
  | _, _ => false
  end.

(** POInverseRelation, BASICS/clb_partial_orderings.h:90-110 *)
Definition cmp_inv (a : cmp) : cmp :=
  match a with Greater => Lesser | Lesser => Greater | _ => a end.

(** The part of the ordering control block the comparison reads (ORDERINGS/cto_ocb.h:55-100):
    OCBFunWeight (179-186), var_weight (71), OCBFunCompare (227-260). *)
Record ocb := { fw : sym -> Z; vw : Z; prec : sym -> sym -> cmp }.

(** The mutable part: wb, pos_bal, neg_bal, max_var, vb, vb_size (cto_ocb.h:72-80).
    [oob] records an access outside vb or an argument array. *)
Record kstate := { wb : Z; pos_bal : Z; neg_bal : Z; max_var : nat; vb : var -> Z; vb_size : nat; oob : bool }.

(** kbo6reset, cto_kbolin.c:1217-1238: clears vb[0..max_var] and the counters. *)
Definition kreset (k : kstate) : kstate :=
  {| wb := 0; pos_bal := 0; neg_bal := 0; max_var := 0;
     vb := fun i => if Nat.leb i (max_var k) then 0%Z else vb k i; vb_size := vb_size k;
     oob := oob k || negb (Nat.ltb (max_var k) (vb_size k)) |}.

(** resize_vb, cto_kbolin.c:77-93: double until the index fits; the new cells are 0. *)
Fixpoint grow (fuel size index : nat) : nat :=
  match fuel with
  | O => size
  | S n => if Nat.leb size index then grow n (2 * size) index else size
  end.
Definition resize (k : kstate) (index : nat) : kstate :=
  if Nat.leb (vb_size k) index
  then {| wb := wb k; pos_bal := pos_bal k; neg_bal := neg_bal k; max_var := max_var k;
          vb := fun i => if Nat.ltb i (vb_size k) then vb k i else 0%Z;
          vb_size := grow (S index) (vb_size k) index; oob := oob k |}
  else k.

Definition zupd (f : var -> Z) (x : var) (v : Z) : var -> Z := fun y => if Nat.eqb x y then v else f y.

(** inc_vb, cto_kbolin.c:131-153 *)
Definition inc_vb (o : ocb) (k0 : kstate) (x : var) : kstate :=
  if Nat.ltb (max_var k0) x
  then let k := resize k0 x in
       {| wb := wb k + vw o; pos_bal := pos_bal k + 1; neg_bal := neg_bal k; max_var := x;
          vb := zupd (vb k) x 1; vb_size := vb_size k; oob := oob k || negb (Nat.ltb x (vb_size k)) |}
  else let tmpbal := vb k0 x in
       {| wb := wb k0 + vw o;
          pos_bal := pos_bal k0 + (if Z.eqb tmpbal 0 then 1 else 0);
          neg_bal := neg_bal k0 - (if Z.eqb tmpbal (-1) then 1 else 0);
          max_var := max_var k0;
          vb := zupd (vb k0) x (tmpbal + 1); vb_size := vb_size k0;
          oob := oob k0 || negb (Nat.ltb x (vb_size k0)) |}.

(** dec_vb, cto_kbolin.c:199-221 *)
Definition dec_vb (o : ocb) (k0 : kstate) (x : var) : kstate :=
  if Nat.ltb (max_var k0) x
  then let k := resize k0 x in
       {| wb := wb k - vw o; pos_bal := pos_bal k; neg_bal := neg_bal k + 1; max_var := x;
          vb := zupd (vb k) x (-1); vb_size := vb_size k; oob := oob k || negb (Nat.ltb x (vb_size k)) |}
  else let tmpbal := vb k0 x in
       {| wb := wb k0 - vw o;
          pos_bal := pos_bal k0 - (if Z.eqb tmpbal 1 then 1 else 0);
          neg_bal := neg_bal k0 + (if Z.eqb tmpbal 0 then 1 else 0);
          max_var := max_var k0;
          vb := zupd (vb k0) x (tmpbal - 1); vb_size := vb_size k0;
          oob := oob k0 || negb (Nat.ltb x (vb_size k0)) |}.

Definition add_wb (k : kstate) (d : Z) : kstate :=
  {| wb := wb k + d; pos_bal := pos_bal k; neg_bal := neg_bal k; max_var := max_var k;
     vb := vb k; vb_size := vb_size k; oob := oob k |}.
Definition set_oob (k : kstate) : kstate :=
  {| wb := wb k; pos_bal := pos_bal k; neg_bal := neg_bal k; max_var := max_var k;
     vb := vb k; vb_size := vb_size k; oob := true |}.

(** mfyvwblhs, cto_kbolin.c:510-545: depth-first traversal with an explicit stack; the
    arguments are pushed left to right, so they are visited right to left. *)
Fixpoint mfylhs (o : ocb) (t : term) (k : kstate) : kstate :=
  match t with
  | Var x => inc_vb o k x
  | Fun f args => fold_right (mfylhs o) (add_wb k (fw o f)) args
  end.

(** mfyvwbrhs, cto_kbolin.c:560-595 *)
Fixpoint mfyrhs (o : ocb) (t : term) (k : kstate) : kstate :=
  match t with
  | Var x => dec_vb o k x
  | Fun f args => fold_right (mfyrhs o) (add_wb k (- fw o f)) args
  end.

(** lines 795-799: the remaining argument pairs, left to right *)
Fixpoint mfy_rest (o : ocb) (a b : list term) (k : kstate) : kstate :=
  match a, b with
  | x :: a', y :: b' => mfy_rest o a' b' (mfyrhs o y (mfylhs o x k))
  | [], [] => k
  | _, _ => set_oob k
  end.

Definition g_or_n (k : kstate) : cmp := if Z.eqb (neg_bal k) 0 then Greater else Uncomparable.
Definition l_or_n (k : kstate) : cmp := if Z.eqb (pos_bal k) 0 then Lesser else Uncomparable.

(** kbolincmp, cto_kbolin.c:771-868 *)
Fixpoint kbolincmp (o : ocb) (s t : term) (k : kstate) {struct s} : cmp * kstate :=
  match s, t with
  | Var x, Var y =>
      if Nat.eqb x y then (Equal, k)
      else (Uncomparable, dec_vb o (inc_vb o k x) y)                    (* 825-829 *)
  | Var x, Fun _ _ => let k' := mfyrhs o t (inc_vb o k x) in (l_or_n k', k')   (* 831-835 *)
  | Fun _ _, Var y => let k' := mfylhs o s (dec_vb o k y) in (g_or_n k', k')   (* 838-842 *)
  | Fun f a, Fun g b =>
      if Nat.eqb f g then
        (fix go (a b : list term) (k : kstate) {struct a} : cmp * kstate :=
           match a, b with
           | [], [] => (Equal, k)
           | x :: a', y :: b' =>
               let '(r, k1) := kbolincmp o x y k in
               match r with
               | Equal => go a' b' k1
               | _ => match a', b' with
                      | [], [] => (r, k1)
                      | _, _ =>
                          let k2 := mfy_rest o a' b' k1 in
                          (if (0 <? wb k2)%Z then g_or_n k2
                           else if (wb k2 <? 0)%Z then l_or_n k2
                           else match r with
                                | Greater => g_or_n k2
                                | Lesser => l_or_n k2
                                | _ => r
                                end, k2)
                      end
               end
           | _, _ => (Equal, set_oob k)
           end) a b k
      else
        let k2 := mfyrhs o t (mfylhs o s k) in                           (* 844-866 *)
        (if (0 <? wb k2)%Z then g_or_n k2
         else if (wb k2 <? 0)%Z then l_or_n k2
         else match prec o f g with
              | Greater => g_or_n k2
              | Lesser => l_or_n k2
              | _ => Equal                    (* res keeps its initial value to_equal *)
              end, k2)
  end.

(** KBO6Compare, cto_kbolin.c:1264-1300; KBO6Greater, 1319-1340. *)
Definition kbo6_compare (o : ocb) (k : kstate) (s t : term) : cmp * kstate := kbolincmp o s t (kreset k).
Definition kbo6_greater (o : ocb) (k : kstate) (s t : term) : bool * kstate :=
  let '(r, k') := kbo6_compare o k s t in (cmp_eqb r Greater, k').

(** State after OCBAlloc, cto_ocb.c:171-260 (vb_size 64, all zero). *)
Definition kinit : kstate :=
  {| wb := 0; pos_bal := 0; neg_bal := 0; max_var := 0; vb := fun _ => 0%Z; vb_size := 64; oob := false |}.

(** ** Specification: the Knuth-Bendix ordering *)

Definition vcount (x : var) (t : term) : nat := count_occ Nat.eq_dec (vars t) x.

(** total weight of a term *)
Fixpoint kweight (o : ocb) (t : term) : Z :=
  match t with
  | Var _ => vw o
  | Fun f args => (fw o f + fold_right (fun a n => kweight o a + n) 0 args)%Z
  end.

(** every variable occurs in s at least as often as in t *)
Definition varcond (s t : term) : Prop := forall x, vcount x t <= vcount x s.

Inductive kbo (o : ocb) : term -> term -> Prop :=
| kbo_weight s t : varcond s t -> (kweight o t < kweight o s)%Z -> kbo o s t
| kbo_var f a x : varcond (Fun f a) (Var x) -> kweight o (Fun f a) = kweight o (Var x) -> kbo o (Fun f a) (Var x)
| kbo_prec f a g b : varcond (Fun f a) (Fun g b) -> kweight o (Fun f a) = kweight o (Fun g b) ->
    prec o f g = Greater -> kbo o (Fun f a) (Fun g b)
| kbo_lex f a b : varcond (Fun f a) (Fun f b) -> kweight o (Fun f a) = kweight o (Fun f b) ->
    kbolex o a b -> kbo o (Fun f a) (Fun f b)
with kbolex (o : ocb) : list term -> list term -> Prop :=
| lex_here x y a b : kbo o x y -> length a = length b -> kbolex o (x :: a) (y :: b)
| lex_later z a b : kbolex o a b -> kbolex o (z :: a) (z :: b).

(** Symbol precedence: a strict total order. *)
Record total_prec (p : sym -> sym -> cmp) : Prop := {
  tp_refl : forall f, p f f = Equal;
  tp_total : forall f g, f <> g -> p f g = Greater \/ p f g = Lesser;
  tp_inv : forall f g, p f g = cmp_inv (p g f);
  tp_trans : forall f g h, p f g = Greater -> p g h = Greater -> p f h = Greater }.

(** Symbol precedence: a strict partial order. *)
Record strict_prec (p : sym -> sym -> cmp) : Prop := {
  sp_irrefl : forall f, p f f <> Greater;
  sp_trans : forall f g h, p f g = Greater -> p g h = Greater -> p f h = Greater }.

(** Admissible weights for terms of the signature with arity function [ar]:
    non-negative symbol weights, positive variable weight, constants at least as heavy as
    variables, and a unary symbol of weight 0 is greater than every other symbol. *)
Record admissible (o : ocb) (ar : sym -> nat) : Prop := {
  ad_nonneg : forall f, (0 <= fw o f)%Z;
  ad_var : (0 < vw o)%Z;
  ad_const : forall c, ar c = 0 -> (vw o <= fw o c)%Z;
  ad_unary : forall f g, ar f = 1 -> fw o f = 0%Z -> f <> g -> prec o f g = Greater }.

(** every symbol is used with its arity *)
Fixpoint arok (ar : sym -> nat) (t : term) : bool :=
  match t with
  | Var _ => true
  | Fun f args => Nat.eqb (length args) (ar f) && forallb (arok ar) args
  end.

Definition ground (t : term) : Prop := vars t = [].
