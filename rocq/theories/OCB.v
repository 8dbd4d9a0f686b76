(** * Model of the precedence part of ORDERINGS/cto_ocb.{c,h}: OCBFunCompare,
    OCBPrecedenceAddTuple, OCBPrecedenceBacktrack. *)
From Verif Require Import Terms KBO.

(** SIG_TRUE_CODE, TERMS/cte_signature.h *)
Definition sig_true : sym := 1.

(** The mutable part: the precedence matrix and the history stack (top first, one entry per
    pushed pair f1,f2; the C stack holds two cells per entry). *)
Record pstate := { mat : sym -> sym -> cmp; stk : list (sym * sym) }.

Section Prec.
  (** [n] = ocb->sig_size, [dist f] = SigIsAnyFuncPropSet(sig, f, distinct_props) *)
  Variables (n : nat) (dist : sym -> bool).

  (** Q_TO_PART, BASICS/clb_partial_orderings.h:65-66 *)
  Definition q_to_part (z : Z) : cmp := if (z <? 0)%Z then Lesser else if (0 <? z)%Z then Greater else Equal.

  Definition b2z (b : bool) : Z := if b then 1%Z else 0%Z.

  (** OCBFunCompareMatrix, cto_ocb.c:648-667 *)
  Definition compare_matrix (st : pstate) (f1 f2 : sym) : cmp :=
    if Nat.leb f1 n then (if Nat.leb f2 n then mat st f1 f2 else Greater)
    else if Nat.leb f2 n then Lesser
    else q_to_part (Z.of_nat f2 - Z.of_nat f1).

  (** OCBFunCompare, cto_ocb.h:227-260; [lower] is the part after the distinctness test. *)
  Definition fun_compare_gen (lower : sym -> sym -> cmp) (f1 f2 : sym) : cmp :=
    if Nat.eqb f1 f2 then Equal
    else if Nat.eqb f1 sig_true then Lesser
    else if Nat.eqb f2 sig_true then Greater
    else let tmp := (b2z (dist f2) - b2z (dist f1))%Z in
         if Z.eqb tmp 0 then lower f1 f2 else q_to_part tmp.

  Definition fun_compare (st : pstate) := fun_compare_gen (compare_matrix st).

  (** the variant with ocb->prec_weights set, cto_ocb.h:253-258 *)
  Definition compare_weights (pw : sym -> Z) (f1 f2 : sym) : cmp :=
    let w1 := if Nat.leb f1 n then pw f1 else (- Z.of_nat f1)%Z in
    let w2 := if Nat.leb f2 n then pw f2 else (- Z.of_nat f2)%Z in
    q_to_part (w1 - w2).
  Definition fun_compare_w (pw : sym -> Z) := fun_compare_gen (compare_weights pw).

  Definition mupd (m : sym -> sym -> cmp) (f g : sym) (c : cmp) : sym -> sym -> cmp :=
    fun x y => if Nat.eqb f x && Nat.eqb g y then c else m x y.

  Section Trans.
    Variable add : pstate -> sym -> sym -> cmp -> option (nat * pstate).   (* OCBPrecedenceAddTuple *)

    (** ocb_trans_compute, cto_ocb.c:86-121; the bool result as 0/1 *)
    Definition trans_compute (st : pstate) (f1 f2 f3 : sym) : option (nat * pstate) :=
      let tobool r := match r with Some (O, s) => Some (0, s) | Some (S _, s) => Some (1, s) | None => None end in
      match fun_compare st f1 f2, fun_compare st f2 f3 with
      | Uncomparable, _ => Some (1, st)
      | Equal, r23 => if cmp_eqb r23 Uncomparable then Some (1, st) else tobool (add st f1 f3 r23)
      | Greater, r23 => if cmp_eqb r23 Equal || cmp_eqb r23 Greater then tobool (add st f1 f3 Greater) else Some (1, st)
      | Lesser, r23 => if cmp_eqb r23 Equal || cmp_eqb r23 Lesser then tobool (add st f1 f3 Lesser) else Some (1, st)
      end.

    (** the loop of OCBPrecedenceAddTuple, cto_ocb.c:440-452 *)
    Fixpoint trans_loop (f1 f2 : sym) (l : list sym) (res : nat) (st : pstate) : option (nat * pstate) :=
      match l with
      | [] => Some (res, st)
      | i :: l' =>
          match trans_compute st f1 f2 i with
          | None => None
          | Some (O, st1) => Some (0, st1)
          | Some (S _, st1) =>
              match trans_compute st1 i f1 f2 with
              | None => None
              | Some (O, st2) => Some (0, st2)
              | Some (S r, st2) => trans_loop f1 f2 l' (S r) st2
              end
          end
      end.
  End Trans.

  (** OCBPrecedenceGetState: the stack pointer *)
  Definition get_state (st : pstate) : nat := 2 * length (stk st).

  (** OCBPrecedenceAddTuple, cto_ocb.c:411-462.  Returns the PStackPointer result (0 = refused)
      and the new state; [None] = fuel exhausted or a pop from the empty stack. *)
  Fixpoint add_tuple (fuel : nat) (st : pstate) (f1 f2 : sym) (relation : cmp) : option (nat * pstate) :=
    match fuel with
    | O => None
    | S k =>
        let old := get_state st in
        if cmp_eqb (fun_compare st f1 f2) relation then Some (old, st)
        else if negb (cmp_eqb (fun_compare st f1 f2) Uncomparable) then Some (0, st)
        else
          let st1 := {| mat := mupd (mupd (mat st) f1 f2 relation) f2 f1 (cmp_inv relation);
                        stk := (f1, f2) :: stk st |} in
          match trans_loop (add_tuple k) f1 f2 (seq 1 n) 0 st1 with
          | None => None
          | Some (O, st2) =>                                         (* 453-459 *)
              match stk st2 with
              | [] => None
              | (g1, g2) :: s' => Some (0, {| mat := mupd (mupd (mat st2) g1 g2 Uncomparable) g2 g1 Uncomparable; stk := s' |})
              end
          | Some (S r, st2) => Some (S r, st2)
          end
    end.

  (** OCBPrecedenceBacktrack, cto_ocb.c:477-494; [None] = pop from the empty stack. *)
  Fixpoint backtrack (m : sym -> sym -> cmp) (s : list (sym * sym)) (state : nat) : option pstate :=
    if Nat.eqb state (2 * length s) then Some {| mat := m; stk := s |}
    else match s with
         | [] => None
         | (f1, f2) :: s' => backtrack (mupd (mupd m f1 f2 Uncomparable) f2 f1 Uncomparable) s' state
         end.

  (** OCBAlloc, cto_ocb.c:233-243: the empty precedence *)
  Definition pinit : pstate := {| mat := fun i j => if Nat.eqb i j then Equal else Uncomparable; stk := [] |}.

  (** ** Specification *)
  Definition insig_code (f : sym) : Prop := 1 <= f <= n.

  (** consequence of two relations f?g and g?h for f?h *)
  Definition comp (a b : cmp) : cmp :=
    match a, b with
    | Uncomparable, _ | _, Uncomparable => Uncomparable
    | Equal, c => c
    | c, Equal => c
    | Greater, Greater => Greater
    | Lesser, Lesser => Lesser
    | _, _ => Uncomparable
    end.

  (** A relation on the signature is an ordering with ties: reflexive, inverse-consistent and closed under composition. *)
  Definition ordering_rel (C : sym -> sym -> cmp) : Prop :=
    (forall f, insig_code f -> C f f = Equal) /\
    (forall f g, insig_code f -> insig_code g -> C f g = cmp_inv (C g f)) /\
    (forall f g h, insig_code f -> insig_code g -> insig_code h ->
       comp (C f g) (C g h) <> Uncomparable -> C f h = comp (C f g) (C g h)).

  (** D contains every relation of C *)
  Definition extends (C D : sym -> sym -> cmp) : Prop :=
    forall f g, insig_code f -> insig_code g -> C f g <> Uncomparable -> D f g = C f g.
End Prec.
