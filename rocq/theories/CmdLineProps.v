(** C65: the command line. *)

From Coq Require Import ZArith String Ascii List Bool Lia.
From Verif Require Import CmdLine CmdLineSpec CmdLineProofs CmdLineRun
  CmdLineMain CmdLineText.
Import ListNotations.
Local Open Scope string_scope.
Local Open Scope list_scope.
Local Open Scope Z_scope.

(** A program gets these options and these input files exactly if that is
    how its command line reads. *)
Theorem C65_reads : forall os t p args fs ins,
  table os t -> Forall c_string args ->
  (command_line (p :: args) t = Ok (fs, ins) <->
   exists as_, reads os args fs as_ /\ ins = inputs as_).
Proof.
  intros os t p args fs ins T CS. split.
  - intros H. destruct (run_decided os t p args T CS) as [U|(gs & as_ & R)].
    + congruence.
    + exists as_. rewrite (run_ok os t p args gs as_ T CS R) in H.
      injection H as <- <-. auto.
  - intros (as_ & R & ->). apply (run_ok os t p args fs as_ T CS R).
Qed.

(** Every other command line is refused. *)
Theorem C65_refuses : forall os t p args,
  table os t -> Forall c_string args ->
  (command_line (p :: args) t = Usage <->
   forall fs as_, ~ reads os args fs as_).
Proof.
  intros os t p args T CS. split.
  - intros H fs as_ R. rewrite (run_ok os t p args fs as_ T CS R) in H.
    discriminate.
  - intros H. destruct (run_decided os t p args T CS) as [U|(gs & as_ & R)];
      auto. exfalso. eapply H; eauto.
Qed.

(** So nothing undefined happens, and the loop over the options ends. *)
Theorem C65_defined : forall os t p args,
  table os t -> Forall c_string args ->
  command_line (p :: args) t <> Ub /\ command_line (p :: args) t <> Tired.
Proof.
  intros os t p args T CS.
  destruct (run_decided os t p args T CS) as [U|(gs & as_ & R)].
  - rewrite U. split; discriminate.
  - rewrite (run_ok os t p args gs as_ T CS R). split; discriminate.
Qed.

(** A command line reads in one way only. *)
Theorem C65_unambiguous : forall os t l fs1 as1 fs2 as2,
  table os t -> Forall c_string l ->
  reads os l fs1 as1 -> reads os l fs2 as2 -> fs1 = fs2 /\ as1 = as2.
Proof. exact reads_one. Qed.

(** Arguments can be added without limit. *)
Theorem C65_insert : forall p args l, exists st,
  (do st0 <- CLStateAlloc (p :: args); insert_all st0 l) = Ok st /\
  files (argv st) = Ok (args ++ l) /\
  argc st = Z.of_nat (length (args ++ l)).
Proof.
  intros p args l. destruct (alloc_rep p args) as (s0 & -> & R & _).
  cbn [bind]. destruct (insert_all_rep l s0 args R) as (st & A & B).
  exists st. split; auto. destruct B as (_ & C & (j & D) & _).
  rewrite D. cbn [app] in *. split; auto. apply files_args.
Qed.

(** A program that is started without even its own name reads nothing,
    instead of standard input. *)
Theorem C65_no_name_refuted : forall os t, table os t ->
  command_line [] t = Ok ([], []) /\ inputs [] = [text "-"].
Proof. intros os t _. split; reflexivity. Qed.

(* ------------------------------------------------------------------ *)

(** The argument of an option that expects a number. *)
Theorem C65_int : forall s n,
  CLStateGetIntArg s = Ok n <->
  (number s n /\ - 2 ^ 63 <= n < 2 ^ 63) \/ (s = [] /\ n = 0).
Proof.
  intros s n. split.
  - intros H. apply int_sound in H. destruct H as [H|[H R]]; auto.
    left. split; auto. unfold long_min, long_max in R. lia.
  - intros [[H R]|[-> ->]]; [|reflexivity].
    apply int_complete; auto. unfold long_min, long_max. lia.
Qed.

Theorem C65_int_refuses : forall s,
  CLStateGetIntArg s = Usage <-> forall n, CLStateGetIntArg s <> Ok n.
Proof.
  intros s. split.
  - intros H n. congruence.
  - intros H. destruct (int_total s) as [U|[n U]]; auto.
    exfalso. eapply H; eauto.
Qed.

(** The empty argument passes for 0. *)
Theorem C65_empty_number_refuted : exists s,
  CLStateGetIntArg s = Ok 0 /\ forall n, ~ number s n.
Proof.
  exists []. split; [reflexivity|]. intros n (ws & sg & ds & m & E & _ & D & _).
  symmetry in E. apply app_eq_nil in E. destruct E as [_ E].
  apply app_eq_nil in E. destruct E as [_ ->].
  apply decimal_val in D. destruct D as (D & _). contradiction.
Qed.

Theorem C65_range : forall s lower upper n,
  CLStateGetIntArgCheckRange s lower upper = Ok n <->
  CLStateGetIntArg s = Ok n /\ lower <= n <= upper.
Proof.
  intros s lower upper n. unfold CLStateGetIntArgCheckRange.
  destruct (CLStateGetIntArg s) as [m| | |]; cbn [bind].
  2,3,4: split; [discriminate|intros [H _]; discriminate].
  destruct (m <? lower) eqn:A; [|destruct (upper <? m) eqn:B]; cbn [orb].
  - apply Z.ltb_lt in A. split; [discriminate|].
    intros [H R]. injection H as ->. lia.
  - apply Z.ltb_lt in B. split; [discriminate|].
    intros [H R]. injection H as ->. lia.
  - apply Z.ltb_ge in A. apply Z.ltb_ge in B. split.
    + intros H. injection H as <-. auto.
    + intros [H _]. exact H.
Qed.

Theorem C65_bool : forall s b,
  CLStateGetBoolArg s = Ok b <-> s = text (if b then "true" else "false").
Proof.
  intros s b. unfold CLStateGetBoolArg. fold (text "true") (text "false").
  destruct (eqstr s (text "true")) eqn:A;
    [|destruct (eqstr s (text "false")) eqn:B].
  - apply eqstr_iff in A. subst s. destruct b; split; intros H; (reflexivity || discriminate).
  - apply eqstr_iff in B. subst s. destruct b; split; intros H; (reflexivity || discriminate).
  - split; [discriminate|]. intros ->.
    destruct b; [rewrite (proj2 (eqstr_iff _ _) eq_refl) in A
                |rewrite (proj2 (eqstr_iff _ _) eq_refl) in B]; discriminate.
Qed.

(* ------------------------------------------------------------------ *)

(** The help prints the whole of a description, in lines of at most 74
    characters. *)
Theorem C65_layout : forall s, exists ls,
  description s = Ok ls /\ laid_out 74 s ls /\
  Forall (fun l => (length l <= 74)%nat /\ ~ In nl l) ls.
Proof.
  intros s. unfold description.
  destruct (print_desc_ok (S (length s)) s (FORMAT_WIDTH - 4)) as (ls & A & B).
  - unfold FORMAT_WIDTH. lia.
  - lia.
  - exists ls. split; auto. split; [exact B|].
    apply (laid_out_lines 74 s ls B).
Qed.

(* ------------------------------------------------------------------ *)
(** ** The hypotheses can be met *)

(** Some options of PROVER/e_options.h. *)
Definition o_help := mkopt 1 "h"%char (Some (text "help")) NoArg None.
Definition o_verbose :=
  mkopt 3 "v"%char (Some (text "verbose")) OptArg (Some (text "1")).
Definition o_out := mkopt 4 "o"%char (Some (text "output-file")) ReqArg None.
Definition o_silent := mkopt 5 "s"%char (Some (text "silent")) NoArg None.
Definition o_cpu :=
  mkopt 6 nul (Some (text "cpu-limit")) OptArg (Some (text "300")).
Definition some_options := [o_help; o_verbose; o_out; o_silent; o_cpu].
Definition some_table := some_options ++ [mkopt 0 nul None NoArg None].

Example table_case : table some_options some_table.
Proof.
  split.
  - unfold some_options. repeat apply Forall_cons; try apply Forall_nil;
      split; discriminate.
  - do 2 eexists. split; reflexivity.
Qed.

Definition a_line := map text
  ["-sv"; "in.p"; "-o"; "--"; "--cpu-limit=5"; "--verbose"; "-ores"; "-";
   "--"; "-h"].

Example line_case :
  Forall c_string a_line /\
  command_line (text "eprover" :: a_line) some_table =
  Ok ([(o_silent, None); (o_verbose, Some (text "1"));
       (o_out, Some (text "--")); (o_cpu, Some (text "5"));
       (o_verbose, Some (text "1")); (o_out, Some (text "res"))],
      map text ["in.p"; "-"; "-h"]).
Proof.
  split; [|reflexivity]. unfold a_line, c_string. cbn [map].
  repeat apply Forall_cons; try apply Forall_nil;
    cbn; intuition discriminate.
Qed.

Example refused_case :
  map (fun l => command_line (map text l) some_table)
    [["eprover"; "--nope"]; ["eprover"; "-x"]; ["eprover"; "--silent=1"];
     ["eprover"; "--output-file"]; ["eprover"; "-so"; "f"]; ["eprover"; "-o"];
     ["eprover"; "--silen"]] = repeat Usage 7.
Proof. reflexivity. Qed.

Example no_file_case :
  command_line (map text ["eprover"; "-s"]) some_table =
  Ok ([(o_silent, None)], [text "-"]).
Proof. reflexivity. Qed.

Example int_case :
  map CLStateGetIntArg (map text
    [" -42"; "+7"; "007"; "9223372036854775807"; "-9223372036854775808";
     "9223372036854775808"; "5x"; "-"; " "; "0x10"]) =
  [Ok (-42); Ok 7; Ok 7; Ok (2 ^ 63 - 1); Ok (- 2 ^ 63); Usage; Usage; Usage;
   Usage; Usage].
Proof. reflexivity. Qed.

Example layout_case :
  description (text "Be silent" ++ [nl] ++ text
   "about everything there is in the search for a refutation and about what ends the search") =
  Ok (map text ["Be silent";
   "about everything there is in the search for a refutation and about what";
   "ends the search"]).
Proof. vm_compute. reflexivity. Qed.

Print Assumptions C65_reads.
Print Assumptions C65_refuses.
Print Assumptions C65_defined.
Print Assumptions C65_unambiguous.
Print Assumptions C65_insert.
Print Assumptions C65_no_name_refuted.
Print Assumptions C65_int.
Print Assumptions C65_int_refuses.
Print Assumptions C65_empty_number_refuted.
Print Assumptions C65_range.
Print Assumptions C65_bool.
Print Assumptions C65_layout.
