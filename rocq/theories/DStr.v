(** * Dynamic strings (BASICS/clb_dstrings.c, .h) *)
From Coq Require Import ZArith.
From Verif Require Export Mem.

(** A character is a number, the terminating NUL is 0. *)
Notation char := nat.
Definition block := mem char.

(** SecureRealloc, BASICS/clb_memory.c:197-245: the old contents up to the smaller size, the rest is not initialised;
    failure of the allocation ends the program and is not modelled. [None] is the NULL pointer. *)
Definition realloc (b : option block) (n : nat) : block :=
  let old := match b with Some m => m | None => [] end in firstn n old ++ repeat None (n - length old).

(** The C string at offset i of a block: the characters before the first NUL. No result if the block ends before, or if a character
    was not initialised (strlen, strcat, strcpy and printing behave like that). *)
Fixpoint cells_str (l : block) : option (list char) :=
  match l with
  | Some 0 :: _ => Some []
  | Some c :: r => option_map (cons c) (cells_str r)
  | _ => None
  end.
Definition str_at (m : block) (i : nat) : option (list char) := cells_str (skipn i m).

(** writing a list of characters from offset i *)
Fixpoint put_chars (m : block) (i : nat) (s : list char) : option block :=
  match s with
  | [] => Some m
  | c :: r => match mwrite m i (Some c) with Some m' => put_chars m' (S i) r | None => None end
  end.

(** DStrCell, clb_dstrings.h:43-49 (the reference count is handled below) *)
Record dstr := { dbuf : option block; dlen : nat; dmem : nat }.
(** DStrAlloc, clb_dstrings.c:57-67; DSTRGROW, .h:51 *)
Definition dstr_alloc : dstr := {| dbuf := None; dlen := 0; dmem := 0 |}.
Definition DSTRGROW : nat := 64.

(** the loop of DStrAppendStr, 122-131 *)
Fixpoint grow (fuel need newmem : nat) : option nat :=
  match fuel with
  | O => None
  | S n => if newmem <=? need then grow n need (newmem + DSTRGROW) else Some newmem
  end.

(** DStrAppendStr, 111-142. The argument is the C string [s] (no NUL in it), not a part of the string appended to. *)
Definition append_str (d : dstr) (s : list char) : option dstr :=
  match grow (S (S (dlen d + length s))) (dlen d + length s) (dmem d) with
  | None => None
  | Some newmem =>
      match (if dmem d <? newmem
             then option_map (fun m => (Some m, newmem)) (mwrite (realloc (dbuf d) newmem) (dlen d) (Some 0))
             else Some (dbuf d, dmem d)) with
      | Some (Some m, cap) =>
          match str_at m (dlen d) with                     (* strcat looks for the end of the string *)
          | None => None
          | Some t => match put_chars m (dlen d + length t) (s ++ [0]) with
                      | Some m' => Some {| dbuf := Some m'; dlen := dlen d + length s; dmem := cap |}
                      | None => None
                      end
          end
      | _ => None
      end
  end.

(** DStrAppendChar, 158-172 *)
Definition append_char (d : dstr) (c : char) : option dstr :=
  let (b, cap) := if dmem d <=? dlen d + 1 then (Some (realloc (dbuf d) (dlen d + DSTRGROW)), dlen d + DSTRGROW) else (dbuf d, dmem d) in
  match b with
  | None => None
  | Some m => match mwrite m (dlen d) (Some c) with
              | None => None
              | Some m1 => match mwrite m1 (dlen d + 1) (Some 0) with
                           | None => None
                           | Some m2 => Some {| dbuf := Some m2; dlen := dlen d + 1; dmem := cap |}
                           end
              end
  end.
(** DStrAppendBuffer, 187-199; the buffer may contain NUL characters *)
Fixpoint append_buffer (d : dstr) (l : list char) : option dstr :=
  match l with [] => Some d | c :: r => match append_char d c with Some d' => append_buffer d' r | None => None end end.
(** DStrAppendStrArray, 236-251 *)
Fixpoint append_rest (d : dstr) (sep : list char) (l : list (list char)) : option dstr :=
  match l with
  | [] => Some d
  | s :: r => match append_str d sep with
              | Some d1 => match append_str d1 s with Some d2 => append_rest d2 sep r | None => None end
              | None => None
              end
  end.
Definition append_array (d : dstr) (l : list (list char)) (sep : list char) : option dstr :=
  match l with [] => Some d | s :: r => match append_str d s with Some d1 => append_rest d1 sep r | None => None end end.

(** DStrDeleteLastChar, 267-280 *)
Definition delete_last (d : dstr) : option (char * dstr) :=
  if 0 <? dlen d then
    match dbuf d with
    | None => None
    | Some m => match mread m (dlen d - 1) with
                | None => None
                | Some c => match mwrite m (dlen d - 1) (Some 0) with
                            | Some m' => Some (c, {| dbuf := Some m'; dlen := dlen d - 1; dmem := dmem d |})
                            | None => None
                            end
                end
    end
  else Some (0, d).

(** DStrView, 299-308, and what a caller reads there *)
Definition view (d : dstr) : option (list char) := match dbuf d with Some m => str_at m 0 | None => Some [] end.
(** DStrAddress, 324-331: [None] for the NULL pointer, otherwise the text there. Nothing can be read at NULL + index. *)
Definition address (d : dstr) (i : nat) : option (option (list char)) :=
  if dlen d <? i then Some None
  else match dbuf d with Some m => option_map Some (str_at m i) | None => Some None end.
(** DStrLastChar, .h:74 *)
Definition last_char (d : dstr) : option char :=
  if dlen d =? 0 then Some 0 else match dbuf d with Some m => mread m (dlen d - 1) | None => None end.

(** DStrCopy, 348-364: a new block of len+1 bytes; the text in it *)
Definition copy (d : dstr) : option (list char) :=
  match dbuf d with
  | None => Some []
  | Some m => match str_at m 0 with
              | None => None
              | Some t => match put_chars (malloc (dlen d + 1)) 0 (t ++ [0]) with Some b => str_at b 0 | None => None end
              end
  end.
(** strncpy(dest, src, n): n characters, padded with NUL after the end of the source *)
Fixpoint strncpy (l : block) (n : nat) {struct n} : option (list char) :=
  match n with
  | O => Some []
  | S n' => match l with
            | Some 0 :: _ => Some (repeat 0 n)
            | Some c :: r => option_map (cons c) (strncpy r n')
            | _ => None
            end
  end.
(** DStrCopyCore, 382-394; with fewer than two characters the size passed on is negative, there is no result *)
Definition copy_core (d : dstr) : option (list char) :=
  if dlen d <? 2 then None
  else match dbuf d with
       | None => None
       | Some m => match strncpy (skipn 1 m) (dlen d - 2) with
                   | None => None
                   | Some t => match put_chars (malloc (dlen d - 1)) 0 t with
                               | None => None
                               | Some b => match mwrite b (dlen d - 2) (Some 0) with Some b' => str_at b' 0 | None => None end
                               end
                   end
       end.

(** DStrReset, 455-464 *)
Definition reset (d : dstr) : option dstr :=
  match dbuf d with
  | None => Some d
  | Some m => match mwrite m 0 (Some 0) with Some m' => Some {| dbuf := Some m'; dlen := 0; dmem := dmem d |} | None => None end
  end.
(** DStrSet, 410-419 *)
Definition set_str (d : dstr) (s : list char) : option dstr := match reset d with Some d' => append_str d' s | None => None end.
(** DStrMinimize, 479-498 *)
Definition minimize (d : dstr) : dstr :=
  match dbuf d with
  | None => d
  | Some m => if dlen d =? 0 then {| dbuf := None; dlen := dlen d; dmem := 0 |}
              else {| dbuf := Some (realloc (Some m) (dlen d + 1)); dlen := dlen d; dmem := dlen d + 1 |}
  end.

(** fgets(buffer, size, fp) on the remaining characters of a file, clib: at most size-1 characters, up to and including a newline (10);
    [None] at the end of the file. The buffer then holds the characters and a NUL. *)
Fixpoint fgets (n : nat) (inp : list char) : list char * list char :=
  match n, inp with
  | O, _ => ([], inp)
  | _, [] => ([], [])
  | S n', c :: r => if c =? 10 then ([c], r) else let (l, r') := fgets n' r in (c :: l, r')
  end.
(** the part of the buffer that DStrAppendStr sees *)
Fixpoint before_nul (l : list char) : list char := match l with [] => [] | 0 :: _ => [] | c :: r => c :: before_nul r end.
Definition DSTRGETS_CHUNK : nat := 256.
(** the loop of DStrFGetS, 526-533 *)
Fixpoint fgets_loop (fuel : nat) (d : dstr) (inp : list char) : option (dstr * list char) :=
  match fuel with
  | O => None
  | S n => match last_char d with
           | None => None
           | Some c => if c =? 10 then Some (d, inp)
                       else match inp with
                            | [] => Some (d, inp)
                            | _ => let (l, inp') := fgets (DSTRGETS_CHUNK - 1) inp in
                                   match append_str d (before_nul l) with Some d' => fgets_loop n d' inp' | None => None end
                            end
           end
  end.
(** DStrFGetS, 517-537: false for NULL *)
Definition dstr_fgets (d : dstr) (inp : list char) : option (bool * dstr * list char) :=
  match reset d with
  | None => None
  | Some d1 => match inp with
               | [] => Some (false, d1, inp)
               | _ => let (l, inp') := fgets (DSTRGETS_CHUNK - 1) inp in
                      match append_str d1 (before_nul l) with
                      | None => None
                      | Some d2 => match fgets_loop (S (length inp')) d2 inp' with Some (d3, r) => Some (true, d3, r) | None => None end
                      end
               end
  end.

(** * Specification: a string is a list of characters. *)
Inductive dop := DAppend (s : list char) | DChar (c : char) | DBuffer (l : list char) | DArray (l : list (list char)) (sep : list char)
  | DDelLast | DView | DLen | DAddress (i : nat) | DLastChar | DCopy | DCopyCore | DSet (s : list char) | DReset | DMinimize.
Inductive dans := DUnit | DCharA (c : char) | DText (s : list char) | DNum (n : nat) | DNull.
Definition no_nul (s : list char) : Prop := ~ In 0 s.
(** arguments that are C strings have no NUL inside; single characters and buffers are arbitrary *)
Definition dop_ok (o : dop) : Prop :=
  match o with DAppend s | DSet s => no_nul s | DArray l sep => no_nul sep /\ forall s, In s l -> no_nul s | _ => True end.

Fixpoint join (sep : list char) (l : list (list char)) : list char :=
  match l with [] => [] | [s] => s | s :: r => s ++ sep ++ join sep r end.

(** What a C programmer reads is the text before the first NUL, all of it if there is none. [None]: the operation must not be called. *)
Definition text_step (l : list char) (o : dop) : option (dans * list char) :=
  match o with
  | DAppend s => Some (DUnit, l ++ s)
  | DChar c => Some (DUnit, l ++ [c])
  | DBuffer s => Some (DUnit, l ++ s)
  | DArray a sep => Some (DUnit, l ++ join sep a)
  | DDelLast => Some (DCharA (last l 0), removelast l)
  | DView | DCopy => Some (DText (before_nul l), l)
  | DLen => Some (DNum (length l), l)
  | DAddress i => if length l <? i then Some (DNull, l) else match l with [] => None | _ => Some (DText (before_nul (skipn i l)), l) end
  | DLastChar => Some (DCharA (last l 0), l)
  | DCopyCore => if length l <? 2 then None else Some (DText (before_nul (removelast (tl l))), l)
  | DSet s => Some (DUnit, s)
  | DReset => Some (DUnit, [])
  | DMinimize => Some (DUnit, l)
  end.

Definition dstr_step (d : dstr) (o : dop) : option (dans * dstr) :=
  let u := option_map (fun d' => (DUnit, d')) in
  match o with
  | DAppend s => u (append_str d s)
  | DChar c => u (append_char d c)
  | DBuffer l => u (append_buffer d l)
  | DArray l sep => u (append_array d l sep)
  | DDelLast => option_map (fun p => (DCharA (fst p), snd p)) (delete_last d)
  | DView => option_map (fun s => (DText s, d)) (view d)
  | DLen => Some (DNum (dlen d), d)
  | DAddress i => option_map (fun a => (match a with Some s => DText s | None => DNull end, d)) (address d i)
  | DLastChar => option_map (fun c => (DCharA c, d)) (last_char d)
  | DCopy => option_map (fun s => (DText s, d)) (copy d)
  | DCopyCore => option_map (fun s => (DText s, d)) (copy_core d)
  | DSet s => u (set_str d s)
  | DReset => u (reset d)
  | DMinimize => Some (DUnit, minimize d)
  end.
