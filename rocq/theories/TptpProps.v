(** * Printing and reading formulas (C62) *)
From Coq Require Import Ascii String List Arith Bool Lia.
From Verif Require Import Tptp TptpSpec TptpLex TptpFuel TptpProofs TptpMain TptpStable TptpMean.
Import ListNotations.
Local Open Scope string_scope.
Local Open Scope nat_scope.
Local Open Scope list_scope.

(** A formula that has been printed is read back: all of it and nothing else is read, and the result is the same formula, up to the names of
    variables (different ones stay different and keep their sorts) and the form of atoms ([norm]). *)
Theorem C62_read_back vs kind pname f s r l :
  constants_ok kind pname -> (forall x, vs x <> default_sort -> word (vs x) 0) -> wf kind pname f -> (forall x, In x (free f) -> vs x = default_sort) ->
  agrees kind s -> bank_ok (bank s) -> ext (bank s) = [] -> ends r -> tokenize r = Tokens l ->
  exists h s', read s (print vs pname f ++ r) = Some (ren h (norm f), s', l) /\ injective_on h (vars f) /\
    (forall x, In x (vars f) -> In (h x) (stacks (bank s') (vs x))) /\ agrees kind s' /\ bank_ok (bank s').
Proof. apply read_print. Qed.

(** ... and it means the same, in all structures *)
Theorem C62_same_meaning vs kind pname f s r l :
  constants_ok kind pname -> (forall x, vs x <> default_sort -> word (vs x) 0) -> wf kind pname f -> (forall x, In x (free f) -> vs x = default_sort) ->
  agrees kind s -> bank_ok (bank s) -> ext (bank s) = [] -> ends r -> tokenize r = Tokens l ->
  exists g s', read s (print vs pname f ++ r) = Some (g, s', l) /\
    exists h, injective_on h (vars f) /\ forall M vs' b b', sorts_of (bank s') vs' -> (forall x, In x (free f) -> b' (h x) = b x) -> (sat kind M vs' b' g <-> sat kind M vs b f).
Proof.
  intros C Hs W Hf Ha Hb He Hr Hl. destruct (C62_read_back vs kind pname f s r l C Hs W Hf Ha Hb He Hr Hl) as (h & s' & H1 & H2 & H3 & _).
  exists (ren h (norm f)), s'. split; auto. exists h. split; auto. intros M vs' b b' [Hv _] Hb'. destruct C as (C1 & C2 & _).
  eapply iff_trans; [apply (ren_sat kind M h vs vs' (norm f) b b')|apply norm_sat; [change (snd (kind (str "$true")) = true); rewrite C1; reflexivity|change (snd (kind (str "$false")) = true); rewrite C2; reflexivity]].
  - intros x y Hx Hy. apply (proj1 (norm_vars f x)) in Hx. apply (proj1 (norm_vars f y)) in Hy. apply H2; auto.
  - intros x Hx. apply (proj1 (norm_vars f x)) in Hx. auto.
  - intros x Hx. apply (proj1 (norm_free f x)) in Hx. auto.
Qed.

(** What has been read, and is then printed, is read again as the same formula.  The symbols are those of the signature; only constants that look
    like variables are left out. *)
Theorem C62_stable s x f s1 l vs :
  reachable s -> read (next s) x = Some (f, s1, l) -> no_capitals s1 -> sorts_of (bank s1) vs -> (forall y, In y (free f) -> vs y = default_sort) ->
  exists g s2, read (next s1) (print vs (find_name s1) f) = Some (g, s2, []) /\
    exists h, g = ren h (norm f) /\ injective_on h (vars f) /\ (forall y, In y (vars f) -> In (h y) (stacks (bank s2) (vs y))) /\
    forall M vs' b b', sorts_of (bank s2) vs' -> (forall y, In y (free f) -> b' (h y) = b y) -> (sat (kind_of s1) M vs' b' g <-> sat (kind_of s1) M vs b f).
Proof.
  intros R E N V F. destruct (read_keep _ _ _ _ _ (good_next _ (good_reachable _ R)) E) as (G & _ & Hf).
  pose proof (consts_self s1 G) as C. pose proof (wf_self s1 f G N Hf) as W. pose proof (good_next _ G) as G'.
  destruct (C62_read_back vs (kind_of s1) (find_name s1) f (next s1) [] [] C (sort_word s1 vs G V) W F) as (h & s2 & H1 & H2 & H3 & _); auto.
  { exact (agrees_self s1). }
  { apply (g_bank _ G'). }
  { exact I. }
  rewrite app_nil_r in H1. exists (ren h (norm f)), s2. split; auto. exists h. split; auto. split; auto. split; auto.
  intros M vs' b b' [Hv _] Hb'. destruct C as (C1 & C2 & _). eapply iff_trans; [apply (ren_sat (kind_of s1) M h vs vs' (norm f) b b')|apply norm_sat; [change (snd (kind_of s1 (str "$true")) = true); rewrite C1; reflexivity|change (snd (kind_of s1 (str "$false")) = true); rewrite C2; reflexivity]].
  - intros y z Hy Hz. apply (proj1 (norm_vars f y)) in Hy. apply (proj1 (norm_vars f z)) in Hz. apply H2; auto.
  - intros y Hy. apply (proj1 (norm_vars f y)) in Hy. auto.
  - intros y Hy. apply (proj1 (norm_free f y)) in Hy. auto.
Qed.

(** The symbols of a formula that has been read are in the signature, with the number of arguments and the role in which they occur. *)
Theorem C62_typed s x f s1 l : reachable s -> read (next s) x = Some (f, s1, l) -> no_capitals s1 -> wf (kind_of s1) (find_name s1) f.
Proof. intros R E N. destruct (read_keep _ _ _ _ _ (good_next _ (good_reachable _ R)) E) as (G & _ & Hf). apply wf_self; auto. Qed.

(** Reading never gives up for want of steps. *)
Theorem C62_reading_ends s x : tokenize x <> LexFuel /\ forall l, tokenize x = Tokens l -> parse_fm (2 * length l + 3) s l <> Fuel.
Proof. split; [apply tokens_fuel; lia|]. intros l _. apply fm_enough. lia. Qed.

(** *** Defects *)
(** A constant with a capital is printed like a variable, and read as one. *)
Theorem C62_capital_constant_refuted : exists x f s1 v s2 vs, read (next start) x = Some (f, s1, []) /\ f = Lit true (TF "p" [TF "X" []]) ttrue /\
  sorts_of (bank s1) vs /\ read (next s1) (print vs (find_name s1) f) = Some (Lit true (TF "p" [TV v]) ttrue, s2, []).
Proof.
  exists (str "p(X())"). eexists _, _, _, _, (fun _ => default_sort). split; [vm_compute; reflexivity|]. split; [reflexivity|]. split; [split; [intros t v []|intros v H; now contradiction H]|].
  vm_compute. reflexivity.
Qed.
(** Quotes do not matter even where they should: the constant '5' is the number 5, and the predicate '$true' is truth. *)
Theorem C62_quotes_refuted : exists f s1 s2 g s3 s4,
  read (next start) (str "p('5')") = Some (f, s1, []) /\ read (next start) (str "p(5)") = Some (f, s2, []) /\
  read (next start) (str "'$true'") = Some (g, s3, []) /\ read (next start) (str "$true") = Some (g, s4, []) /\ (forall kind M vs b, sat kind M vs b g).
Proof.
  eexists _, _, _, _, _, _. split; [vm_compute; reflexivity|]. split; [vm_compute; reflexivity|]. split; [vm_compute; reflexivity|]. split; [vm_compute; reflexivity|].
  intros kind M vs b. cbn. destruct (_ || _); reflexivity.
Qed.
(** The sort of a variable outlives its quantifier: the second X ranges over $int, although its own quantifier does not say so. *)
Theorem C62_scope_refuted : exists f s1 x y g h, read (next start) (str "(![X:$int]:(p(X)))&(![X]:(q(X)))") = Some (f, s1, []) /\
  f = Bin And (Qu true x g) (Qu true y h) /\ In y (stacks (bank s1) "$int") /\ ~ In y (stacks (bank s1) default_sort).
Proof. eexists _, _, _, _, _, _. split; [vm_compute; reflexivity|]. split; [reflexivity|]. split; [vm_compute; auto|]. vm_compute. auto. Qed.

(** *** Examples *)
Lemma lookup_in {A} f (l : list (text * A)) a : lookup f l = Some a -> In (f, a) l.
Proof. induction l as [|[n b] l IH]; cbn; [discriminate|]. destruct (text_eqb f n) eqn:E; [|auto]. apply text_eqb_eq in E as ->. intros H; inversion H; auto. Qed.
Definition capitalb (p : text) : bool := match p with c :: _ => isupper c || is c "_" | [] => false end.
Lemma no_capitals_check s : forallb (fun e => negb (capitalb (fst (fst (snd e))))) (sig s) = true -> no_capitals s.
Proof.
  intros H f p k Hl (c & r & -> & Hc & _). apply lookup_in in Hl. rewrite forallb_forall in H. apply H in Hl. cbn in Hl. destruct Hc as [Hc| ->]; [rewrite Hc in Hl|]; discriminate Hl.
Qed.
Definition ex_text : text := str "( ! [X:$int, Y] : ?[Z]: (p(X,f(Z,'a b')) | ~ q(""obj"", -007) | Z != f(Y, c)) => $false ) <~> r % rest".
Definition ex_sorts (v : nat) : text := if v =? 2 then str "$int" else default_sort.
Definition ex_print : text := str "((![X1:$int, X2]:(?[X3]:((p(X1,f(X3,'a b'))|~(q(""obj"",-7))|X3!=f(X2,c))))=>~$true)<~>r)".
Example ex_stable : exists f s1, read (next start) ex_text = Some (f, s1, []) /\ no_capitals s1 /\ sorts_of (bank s1) ex_sorts /\ free f = [] /\ vars f = [2; 4; 6; 2; 6; 6; 4] /\
  print ex_sorts (find_name s1) f = ex_print.
Proof.
  eexists _, _. split; [vm_compute; reflexivity|]. split; [apply no_capitals_check; vm_compute; reflexivity|]. split; [|split; [vm_compute; reflexivity|split; vm_compute; reflexivity]].
  assert (E : forall b, (forall t, stacks b t = upd (upd (upd (fun _ => []) (str "$int") [2]) default_sort [4]) default_sort [4; 6] t) -> sorts_of b ex_sorts).
  { intros b H. split.
    - intros t v. rewrite H. unfold upd. destruct (text_eqb default_sort t) eqn:E1; [|destruct (text_eqb (str "$int") t) eqn:E2].
      + apply text_eqb_eq in E1 as <-. intros [<-|[<-|[]]]; reflexivity.
      + apply text_eqb_eq in E2 as <-. intros [<-|[]]; reflexivity.
      + intros [].
    - intros v. unfold ex_sorts. destruct (v =? 2) eqn:E; [|easy]. apply Nat.eqb_eq in E as ->. intros _. rewrite H. vm_compute. auto. }
  apply E. intros t. vm_compute. reflexivity.
Qed.
Example ex_again : exists f s1 g s2, read (next start) ex_text = Some (f, s1, []) /\ read (next s1) (print ex_sorts (find_name s1) f) = Some (g, s2, []) /\
  g <> f /\ vars g <> vars f /\ length (vars g) = 7.
Proof. eexists _, _, _, _. split; [vm_compute; reflexivity|]. split; [vm_compute; reflexivity|]. split; [discriminate|]. split; [discriminate|reflexivity]. Qed.
(** hypotheses of C62_read_back, in the middle of a line *)
Definition ex_kind (f : text) : nat * bool := if text_eqb f "p" then (1, true) else if text_eqb f "$true" then (0, true) else if text_eqb f "$false" then (0, true) else (0, false).
Example ex_back : constants_ok ex_kind (fun f => f) /\ wf ex_kind (fun f => f) (Qu true 3 (Bin Or (Lit true tfalse (TF "p" [TV 3])) (Lit false (TV 3) (TF "c" [])))) /\
  agrees ex_kind start /\ bank_ok (bank start) /\ ends (str ").") /\ tokenize (str ").") = Tokens [(false, CloseBracket); (false, Fullstop)] /\
  print (fun _ => default_sort) (fun f => f) (Qu true 3 (Bin Or (Lit true tfalse (TF "p" [TV 3])) (Lit false (TV 3) (TF "c" [])))) = str "![Y2]:((~p(Y2)|Y2!=c))".
Proof.
  split; [vm_compute; auto|]. split.
  { apply wf_qu, wf_bin.
    - apply wf_atom'; [right; reflexivity|]. constructor; [reflexivity| |repeat constructor]. split; [reflexivity|]. split; [|reflexivity]. apply k_word, (w_lower "p"%char); reflexivity.
    - apply wf_eq; [constructor|]. constructor; [reflexivity| |constructor]. split; [reflexivity|]. split; [|reflexivity]. apply k_word, (w_lower "c"%char); reflexivity. }
  split. { intros f p a k. cbn -[str]. destruct (text_eqb f (str "$true")) eqn:E1; [apply text_eqb_eq in E1 as ->; intros H; inversion H; vm_compute; auto|].
    destruct (text_eqb f (str "$false")) eqn:E2; [apply text_eqb_eq in E2 as ->; intros H; inversion H; vm_compute; auto|discriminate]. }
  split; [apply (g_bank _ good_start)|]. split; [left; reflexivity|]. split; vm_compute; reflexivity.
Qed.

Print Assumptions C62_read_back.
Print Assumptions C62_same_meaning.
Print Assumptions C62_stable.
Print Assumptions C62_typed.
Print Assumptions C62_reading_ends.
Print Assumptions C62_capital_constant_refuted.
Print Assumptions C62_quotes_refuted.
Print Assumptions C62_scope_refuted.
