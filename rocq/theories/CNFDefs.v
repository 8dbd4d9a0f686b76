(** * Model of the introduction of definitions for subformulas before clausification
    (CLAUSES/ccl_tcnf.c, ccl_tformulae.c, ccl_formulafunc.c).  First-order build; executable definitions only.

    The properties TPCheckFlag, TPPosPolarity and TPNegPolarity of the shared formula cells are modelled by the list of the definitions and by
    the list of the marks: the flag of a formula is set iff the formula is in the list.  Derivation records, the archive and the virtual
    definitions that only appear in proof output (vals[0] and vals[3] of the cells) are not modelled.  [estimate] is
    TFormulaEstimateClauses, ccl_tcnf.c:1276-1430, here any function: it only decides which subformulas are renamed. *)
From Verif Require Import Terms Unify Semantics Clauses Split CNF.

(** A polarity is -1, 0 or 1; 0 stands for both. *)
Definition polarity := Z.

(** The definitions: [renamed_forms] with the atom of the cell (vals[1]), in the order of creation; the signature and its next code. *)
Record dstate := mkds { d_env : env; d_next : sym; d_defs : list (form * term) }.

(** NumXTreeFind by entry_no; TPCheckFlag *)
Definition find_def (defs : list (form * term)) (f : form) : option term := option_map snd (List.find (fun d => form_eqb f (fst d)) defs).

(** EqnTermsTBTermEncode(atom, $true, true) *)
Definition def_atom (a : term) : form := FLit true a ttrue.

Section Find.
  Variables (arrange : list var -> list var) (estimate : form -> bool -> Z) (limit : Z).

  (** the argument at a position *)
  Definition arg (f : form) (second : bool) : form :=
    match f with FNot a => a | FBin _ a b => if second then b else a | FQ _ _ a => a | _ => f end.
  Definition large (f : form) (sign : bool) : bool := (limit <? estimate f sign)%Z.

  (** tformula_rename_test, ccl_tcnf.c:455-520.  Positions are 0 and 1, so the sign for an implication (line 488, [pos==2]) is always false. *)
  Definition rename_test (root : form) (second : bool) (pol : polarity) : bool :=
    let a := arg root second in
    match root with
    | FQ _ _ _ => false
    | FBin Equiv _ _ => large a true || large a false
    | FBin o _ _ =>
        if (pol =? 1)%Z then match o with Or => large a true | Impl => large a false | _ => false end
        else if (pol =? -1)%Z then match o with And => large a false | _ => false end
        else match o with And | Or | Impl => large a true || large a false | _ => false end
    | _ => false
    end.

  (** TFormulaDefRename, ccl_tcnf.c:1456-1500.  The polarity kept in the cell is overwritten before it is read (ccl_formulafunc.c:2519), so
      it is left out. *)
  Definition def_rename (f : form) (st : dstate) : dstate :=
    match find_def (d_defs st) f with
    | Some _ => st
    | None =>
        let '(a, E, n) := new_skolem (d_env st) (d_next st) (arrange (nodup Nat.eq_dec (free_vars f))) (fres (srt (d_env st)) true_code) in
        mkds E n (d_defs st ++ [(f, a)])
    end.
  Definition rename_if (b : bool) (f : form) (st : dstate) : dstate := if b then def_rename f st else st.

  (** TFormulaFindDefs, ccl_tcnf.c:1519-1603.  Registering a formula again that has a definition (1537-1551) only changes the polarity in its cell. *)
  Fixpoint find_defs (pol : polarity) (f : form) (st : dstate) : dstate :=
    match f with
    | FNot a => rename_if (rename_test f false (- pol)%Z) a (find_defs (- pol)%Z a st)
    | FBin o a b =>
        let st1 := match o with
                   | And | Or => rename_if (rename_test f false pol) a (find_defs pol a st)
                   | Impl => rename_if (rename_test f false (- pol)%Z) a (find_defs (- pol)%Z a st)
                   | Equiv => rename_if (rename_test f false pol) a (find_defs 0%Z a st)
                   | _ => st
                   end in
        match o with
        | And | Or | Impl => rename_if (rename_test f true pol) b (find_defs pol b st1)
        | Equiv => rename_if (rename_test f true pol) b (find_defs 0%Z b st1)
        | _ => st1
        end
    | FQ _ _ a => rename_if (rename_test f true pol) a (find_defs pol a st)
    | _ => st
    end.

  (** TFormulaSetFindDefs, ccl_formulafunc.c:1955-1975: formulas that are clauses (flag [true]) are skipped *)
  Definition set_find_defs (fs : list (bool * form)) (st : dstate) : dstate :=
    fold_left (fun st cf => if negb (fst cf) && negb (limit =? 0)%Z then find_defs 1%Z (snd cf) st else st) fs st.
End Find.

(** TFormulaMarkPolarity, ccl_tformulae.c:2504-2554: the cells that are marked, with the polarity *)
Fixpoint mark (pol : polarity) (f : form) : list (form * polarity) :=
  match f with
  | FLit _ _ _ => []
  | FAtom _ => [(f, pol)]
  | FNot a => (f, pol) :: mark (- pol)%Z a
  | FBin (And | Or) a b => (f, pol) :: mark pol a ++ mark pol b
  | FBin Impl a b => (f, pol) :: mark (- pol)%Z a ++ mark pol b
  | FBin Equiv a b => (f, pol) :: mark 0%Z a ++ mark 0%Z b
  | FBin _ _ _ => [(f, pol)]
  | FQ _ _ a => (f, pol) :: mark pol a
  end.
(** TPPosPolarity, TPNegPolarity *)
Definition has_pos (marks : list (form * polarity)) (f : form) : bool := existsb (fun m => form_eqb f (fst m) && negb (snd m =? -1)%Z) marks.
Definition has_neg (marks : list (form * polarity)) (f : form) : bool := existsb (fun m => form_eqb f (fst m) && negb (snd m =? 1)%Z) marks.
(** TFormulaDecodePolarity, ccl_tformulae.c:2569-2588 (without assertions: 0 for an unmarked formula) *)
Definition decode (marks : list (form * polarity)) (f : form) : polarity :=
  if has_pos marks f && has_neg marks f then 0%Z
  else if has_pos marks f then 1%Z
  else if has_neg marks f then (-1)%Z else 0%Z.

(** TFormulaAddQuantors, ccl_tformulae.c:2361-2376 *)
Definition add_quantors (g : form) (xs : list var) : form := fold_left (fun g x => FQ true x g) xs g.
(** TFormulaCreateDef, ccl_tformulae.c:2417-2450 *)
Definition create_def (arrange : list var -> list var) (a : term) (f : form) (pol : polarity) : form :=
  let core := if (pol =? -1)%Z then FBin Impl f (def_atom a)
              else if (pol =? 1)%Z then FBin Impl (def_atom a) f
              else FBin Equiv (def_atom a) f in
  add_quantors core (arrange (nodup Nat.eq_dec (vars a))).

(** TFormulaCopyDef, ccl_tcnf.c:1620-1675.  [blocked] is the formula whose definition is copied (its number in the code, vals[2]). *)
Definition is_blocked (blocked : option form) (f : form) : bool := match blocked with Some g => form_eqb f g | None => false end.
Fixpoint copy_def (defs : list (form * term)) (blocked : option form) (f : form) : form :=
  match f with
  | FLit _ _ _ | FAtom _ => f
  | _ =>
      match (if is_blocked blocked f then None else find_def defs f) with
      | Some a => def_atom a
      | None => match f with
                | FNot a => FNot (copy_def defs blocked a)
                | FBin o a b => FBin o (copy_def defs blocked a) (copy_def defs blocked b)
                | FQ q x a => FQ q x (copy_def defs blocked a)
                | _ => f
                end
      end
  end.

(** TFormulaSetIntroduceDefs, ccl_formulafunc.c:2486-2572 *)
Definition introduce_defs (arrange : list var -> list var) (estimate : form -> bool -> Z) (limit : Z) (st : cstate) (fs : list (bool * form))
  : list form * cstate :=
  let marks := flat_map (fun cf => mark 1%Z (snd cf)) fs in
  let ds := set_find_defs arrange estimate limit fs (mkds (c_env st) (c_next st) []) in
  let defs := d_defs ds in
  (map (fun cf => copy_def defs None (snd cf)) fs ++
   map (fun d => copy_def defs (Some (fst d)) (create_def arrange (snd d) (fst d) (decode marks (fst d)))) defs,
   mkst (d_env ds) (d_next ds) (c_vars st)).

(** FormulaSetCNF2, ccl_formulafunc.c:1631-1700, with FormulaSetSimplify and WFormulaSimplify (1449-1467, limit 0), for formulas none of which is
    flagged as a clause; without unrolling of formulas inside terms before. *)
Definition set_cnf (fuel : nat) (arrange : list var -> list var) (estimate : form -> bool -> Z) (def_limit mlimit : Z) (unroll : bool)
  (st : cstate) (fs : list form) : option (list clause * cstate) :=
  match mapo (simplify 0) fs with
  | None => None
  | Some gs => let '(hs, st1) := introduce_defs arrange estimate def_limit st (map (pair false) gs) in
               clausify_all fuel arrange mlimit unroll st1 hs
  end.
