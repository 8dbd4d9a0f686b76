(** * A run that loses part of the input (C61): the configuration, the input and the steps. *)
From Coq Require Import ZArith.
From Verif Require Import Terms Unify KBO Semantics Clauses LitOrder ExEnv Infer Subsume Taut Rewrite RewriteHist Split AC Saturate Lossless.
Local Open Scope nat_scope.

(** numbers for terms: a prefix code *)
Fixpoint unary (k : nat) : list bool := match k with 0 => [false] | S k' => true :: unary k' end.
Fixpoint code (t : term) : list bool :=
  match t with
  | Var x => true :: unary x
  | Fun f a => false :: unary f ++ unary (length a) ++ (fix go (l : list term) : list bool := match l with [] => [] | u :: l' => code u ++ go l' end) a
  end.
Fixpoint bits (l : list bool) : positive := match l with [] => xH | true :: l' => xI (bits l') | false :: l' => xO (bits l') end.
Definition eno61 (t : term) : Z := Zpos (bits (code t)).

(** Sort 0: truth values, sort 1: individuals.  3 4 5 6: constants a b c d, 7 8 9 10: unary f g h m, 11: unary predicate p. *)
Definition S61 : sorting := {|
  vsort := fun _ => 1;
  fres := fun f => if 30 <=? f then 0 else match f with 1 | 2 | 11 => 0 | _ => 1 end;
  fargs := fun f => match f with 7 | 8 | 9 | 10 | 11 => [1] | _ => [] end |}.
Definition E61 : env := {| srt := S61; pp := fun f => Nat.eqb f 11; dist := fun _ => false; pspred := fun _ => false; fresh := fun _ k => Datatypes.S (2 * k) |}.
Definition a61 := Fun 3 []. Definition b61 := Fun 4 []. Definition c61 := Fun 5 []. Definition d61 := Fun 6 [].
Definition f61 t := Fun 7 [t]. Definition g61 t := Fun 8 [t]. Definition h61 t := Fun 9 [t]. Definition m61 t := Fun 10 [t]. Definition p61 t := Fun 11 [t].

(** KBO, all weights 1; precedence p > m > f > g > h > c > d > b > a *)
Definition rank61 (f : sym) : nat := match f with 11 => 11 | 10 => 10 | 7 => 9 | 8 => 8 | 9 => 7 | 5 => 6 | 6 => 5 | 4 => 4 | 3 => 3 | _ => 0 end.
Definition prec61 (f g : sym) : cmp := if Nat.eqb f g then Equal else if Nat.ltb (rank61 g) (rank61 f) then Greater else Lesser.
Definition kbo61 : ocb := {| fw := fun f => if Nat.eqb f 1 then 0%Z else 1%Z; vw := 1%Z; prec := prec61 |}.
Definition cmp61 (s t : term) : cmp := if term_eqb s t then Equal else fst (kbo6_compare kbo61 kinit s t).
Definition o61 : lord := {| tcmp := fun b s t => match inst 60 b s, inst 60 b t with Some s', Some t' => cmp61 s' t' | _, _ => Uncomparable end; lcmp := LCNormal; fcmp := prec61 |}.
Definition K61 : conf := {|
  ordr := o61; gtb := fun s t => fst (kbo6_greater kbo61 kinit s t); strong_inst := false; minterm := fun _ => a61; eno := eno61; max_neg := 10; altv := fun x => 20 + 2 * (x / 2); lookup := fun _ _ => None;
  given_simpl := true; fwd_csr := true; fwd_csr_aggr := true; bwd_csr := true; condensing := true; condensing_aggr := true;
  local_rewriting := false; strong_subsumption := true; forward_demod := FullRewrite; subsumption_aggr := true;
  er_varlit := true; er_strong := true; er_aggr := true; er_max_only := false;
  split_horn := false; split_nonhorn := false; split_negative := false; split_positive := false; split_mixed := false;
  split_how := SplitGroundFull; split_fresh := false; split_aggr := false;
  eq_factoring := true; diseq_lits := 0; diseq_arity := 0; neg_unit_pm := true; pm_type := PmPlain; generate := true;
  ac_handling := NoACHandling |}.

(** Retrieval finds everything; all overlaps are tried; clauses that contain [hit (time s)] are found by backward rewriting, and the
    clause at position [order (time s)] is chosen. *)
Fixpoint positions (t : term) : list (list nat) :=
  match t with
  | Var _ => []
  | Fun _ a => [] :: (fix go (i : nat) (l : list term) : list (list nat) := match l with [] => [] | u :: l' => map (cons i) (positions u) ++ go (S i) l' end) 0 a
  end.
Definition sides (e : eqn) : list bool := if ori e then [true] else [true; false].
Definition overlaps_of (k i : nat) (fn : bool) (from into : clause) : list overlap :=
  flat_map (fun '(a, e0) => flat_map (fun fs => flat_map (fun '(b, e) => flat_map (fun is => map (fun q =>
     {| pset_no := k; pcl := i; from_new := fn; indexed := true; ofi := a; ofs := fs; oii := b; ois := is; opos := q |})
     (positions (if is then lt e else rt e))) (sides e)) (combine (seq 0 (length into)) into)) (sides e0)) (combine (seq 0 (length from)) from).
Definition P61 (order : nat -> nat) (hit : nat -> sym) : policy := {|
  orphan := fun _ _ => false; bad := fun _ _ => false; contract_all := fun _ => false; choose := fun s => Some (order (time s)); choose_lits := fun _ _ _ => false;
  dem_order := fun _ _ _ _ => seq 0 20; unit_order := fun _ _ => seq 0 20;
  overlaps := fun s c => flat_map (fun k => flat_map (fun '(i, d) => overlaps_of k i true c (lits d) ++ overlaps_of k i false (lits d) c)
     (combine (seq 0 (length (proc_set s k))) (proc_set s k))) (seq 0 4);
  factor_pairs := fun _ _ => []; counts := fun _ _ => 0; bw_terms := fun s => seq 0 (length (indexed_terms s));
  bw_found := fun s c => existsb (fun e => existsb (Nat.eqb (hit (time s))) (tsyms (lt e) ++ tsyms (rt e))) (lits c);
  tmp_order := fun s => seq 0 (length (tmp s)); has_split_lit := fun _ _ => false |}.

(** f(X)=g(c), m(f(X))=b, c=d, p(X), ~p(Y)|f(X)=g(Z), g(X)=h(X), f(a)!=h(d) *)
Definition N61 : list clause :=
  [[eq0 (f61 X0) (g61 c61)]; [eq0 (m61 (f61 X0)) b61]; [eq0 c61 d61]; [at0 (p61 X0)]; [nat0 (p61 X0); eq0 (f61 Y0) (g61 Z0)]; [eq0 (g61 X0) (h61 X0)]; [ne0 (f61 a61) (h61 d61)]].
(** the first of the unprocessed clauses, except in the sixth round: f(X)=g(d) *)
Definition order61 (k : nat) : nat := match k with 5 => 3 | _ => 0 end.
(** clauses found by backward rewriting: by c -> d those with c, by g(X) -> h(X) those with g, by m(h(X)) -> b those with m *)
Definition hit61 (k : nat) : sym := match k with 2 => 5 | 6 => 8 | 12 => 10 | _ => 99 end.
Notation end61 := (saturate E61 K61 (P61 order61 hit61) 60 20 (init K61 30 N61)).
