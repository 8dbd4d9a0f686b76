(** * Model of ORDERINGS/cto_lpo.c: the lexicographic path ordering, variant LPO4
    (default build: first-order, so LambdaEtaReduceDB, WHNF_*, classify_head, the phony-application
    offsets and adjust_ho_deref are identities; dereferencing is not modelled, the terms compared
    are the instantiated ones). *)
From Verif Require Import Terms KBO.

(** TermIsSubterm(super, test), TERMS/cte_termfunc.c:1803-1822, for a variable [test]:
    structural search. *)
Definition is_subterm (s t : term) : bool := existsb (term_eqb t) (subterms s).

(** One call returns the answer and the value of the static counter recursion_depth.
    [None] = fuel exhausted or an argument index out of range; theorems exclude it. *)
Definition dres := option (bool * nat).

Section Loops.
  Variable gt : nat -> term -> term -> dres.   (* lpo4_greater at the given recursion_depth *)

  (** lpo4_alpha, cto_lpo.c:455-469; [l] = s->args[pos..] *)
  Fixpoint alpha (l : list term) (t : term) (dep : nat) : dres :=
    match l with
    | [] => Some (false, dep)
    | u :: l' => if term_eqb u t then Some (true, dep)
                 else match gt dep u t with
                      | Some (true, dep') => Some (true, dep')
                      | Some (false, dep') => alpha l' t dep'
                      | None => None
                      end
    end.

  (** lpo4_majo, cto_lpo.c:485-498; [l] = t->args[pos..] *)
  Fixpoint majo (s : term) (l : list term) (dep : nat) : dres :=
    match l with
    | [] => Some (true, dep)
    | v :: l' => match gt dep s v with
                 | Some (false, dep') => Some (false, dep')
                 | Some (true, dep') => majo s l' dep'
                 | None => None
                 end
    end.

  (** lpo4_lex_ma, cto_lpo.c:514-541; [a] = s->args[pos..], [b] = t->args[pos..] *)
  Fixpoint lexma (s t : term) (a b : list term) (dep : nat) : dres :=
    match a with
    | [] => Some (false, dep)
    | x :: a' =>
        match b with
        | [] => Some (true, dep)                                  (* 523-526 *)
        | y :: b' =>
            if term_eqb x y then lexma s t a' b' dep
            else match gt dep x y with
                 | Some (true, dep') => majo s b' dep'
                 | Some (false, dep') => alpha a' t dep'
                 | None => None
                 end
        end
    end.
End Loops.

(** lpo4_greater, cto_lpo.c:556-636.  [limit] = LPORecursionDepthLimit (51), [dep] = the static
    recursion_depth; [fuel] bounds the C stack only. *)
Fixpoint lpo4 (fuel limit : nat) (p : sym -> sym -> cmp) (dep : nat) (s t : term) : dres :=
  match fuel with
  | O => None
  | S n =>
    if Nat.ltb limit dep then Some (false, dep)                   (* 566-569 *)
    else
      let dep1 := S dep in                                         (* 570 *)
      let r := match s with
               | Var _ => Some (false, dep1)
               | Fun f a =>
                   match t with
                   | Var _ => Some (is_subterm s t, dep1)
                   | Fun g b =>
                       match p f g with
                       | Greater => majo (lpo4 n limit p) s b dep1
                       | Equal => lexma (lpo4 n limit p) s t a b dep1
                       | _ => alpha (lpo4 n limit p) a t dep1
                       end
                   end
               end in
      match r with
      | Some (b, dep2) => Some (b, dep2 - 1)                       (* 634 *)
      | None => None
      end
  end.

(** LPO4Greater, cto_lpo.c:881-894; the answer and the static counter afterwards. *)
Definition lpo4_Greater fuel limit p dep s t := lpo4 fuel limit p dep s t.

(** LPO4Compare, cto_lpo.c:909-936 *)
Definition lpo4_Compare (fuel limit : nat) (p : sym -> sym -> cmp) (dep : nat) (s t : term) : option (cmp * nat) :=
  if term_eqb s t then Some (Equal, dep)
  else match lpo4 fuel limit p dep s t with
       | Some (true, dep') => Some (Greater, dep')
       | Some (false, dep') =>
           match lpo4 fuel limit p dep' t s with
           | Some (true, dep'') => Some (Lesser, dep'')
           | Some (false, dep'') => Some (Uncomparable, dep'')
           | None => None
           end
       | None => None
       end.

(** ** Specification: the lexicographic path ordering *)

Inductive lexr (R : term -> term -> Prop) : list term -> list term -> Prop :=
| lexr_here x y a b : R x y -> length a = length b -> lexr R (x :: a) (y :: b)
| lexr_later z a b : lexr R a b -> lexr R (z :: a) (z :: b).

Inductive lpo (p : sym -> sym -> cmp) : term -> term -> Prop :=
| lpo_arg f a u : In u a -> lpo p (Fun f a) u
| lpo_sub f a u t : In u a -> lpo p u t -> lpo p (Fun f a) t
| lpo_prec f a g b : p f g = Greater -> (forall v, In v b -> lpo p (Fun f a) v) -> lpo p (Fun f a) (Fun g b)
| lpo_lex f a b : lexr (lpo p) a b -> (forall v, In v b -> lpo p (Fun f a) v) -> lpo p (Fun f a) (Fun f b).

(** A strict partial precedence in which only identical symbols compare equal. *)
Record lpo_precedence (p : sym -> sym -> cmp) : Prop := {
  lp_refl : forall f, p f f = Equal;
  lp_equal : forall f g, p f g = Equal -> f = g;
  lp_trans : forall f g h, p f g = Greater -> p g h = Greater -> p f h = Greater }.
