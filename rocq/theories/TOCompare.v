(** * Model of the term comparison interface ORDERINGS/cto_orderings.c (TOGreater, TOCompare) and of the comparison cache
    ORDERINGS/cto_cmpcache.c. *)
From Verif Require Import Terms KBO LPO Splay.

(** The orderings modelled.  [k] is the static state of the KBO6 code (variable balances), [fuel] bounds the recursion of the
    model of LPO4 (sufficient fuel is part of the hypotheses).  ocb->type values LPO, LPOCopy, LPO4Copy and KBO (older
    implementations) are not modelled.  Terms are already instantiated (the deref arguments of the C functions). *)
Inductive tordering :=
| TKBO6 (o : ocb) (k : kstate)
| TLPO4 (fuel limit : nat) (p : sym -> sym -> cmp)
| TEMPTY.

(** TOCompare, cto_orderings.c:118-167 *)
Definition to_compare (ord : tordering) (s t : term) : option cmp :=
  match ord with
  | TKBO6 o k => Some (fst (kbo6_compare o k s t))
  | TLPO4 fuel limit p => option_map fst (lpo4_Compare fuel limit p 0 s t)
  | TEMPTY => Some Uncomparable
  end.
(** TOGreater, cto_orderings.c:59-103 *)
Definition to_greater (ord : tordering) (s t : term) : option bool :=
  match ord with
  | TKBO6 o k => Some (fst (kbo6_greater o k s t))
  | TLPO4 fuel limit p => option_map fst (lpo4_Greater fuel limit p 0 s t)
  | TEMPTY => Some false
  end.

(** ** The cache *)
(** CompareResult, BASICS/clb_partial_orderings.h:37-46 *)
Inductive cres := CUnknown | CExact (c : cmp) | CNotGtEq | CNotLeEq.
(** POInverseRelation, clb_partial_orderings.h:90-115 *)
Definition cinv (c : cres) : cres :=
  match c with CUnknown => CUnknown | CExact c => CExact (cmp_inv c) | CNotGtEq => CNotLeEq | CNotLeEq => CNotGtEq end.

Notation qkey := (Z * Z * Z * Z)%type.
Notation cache := (tree qkey cres).
(** prepare_key, cto_cmpcache.c:55-71; term cells are addresses, [d] the deref counter *)
Definition prepare_key (t1 d1 t2 d2 : Z) : bool * qkey :=
  match dbl_cmp t1 d1 t2 d2 with Gt => (true, (t1, d1, t2, d2)) | _ => (false, (t2, d2, t1, d1)) end.

Section Cache.
  Variable isvar : Z -> bool.   (* TermIsFreeVar *)
  (** CmpCacheFind, cto_cmpcache.c:91-121 *)
  Definition cache_find (c : cache) (t1 d1 t2 d2 : Z) : cres * cache :=
    if isvar t1 || isvar t2 then (CUnknown, c)
    else let (nat_order, key) := prepare_key t1 d1 t2 d2 in
         match find qkey cres quad_cmp c key with
         | (Some (_, v), c') => (if nat_order then v else cinv v, c')
         | (None, c') => (CUnknown, c')
         end.
  (** assigning handle->val, the entry just found at the root *)
  Definition set_root (c : cache) (v : cres) : cache := match c with Leaf => Leaf | Node l k _ r => Node l k v r end.
  (** the switch cto_cmpcache.c:165-202 *)
  Definition cache_upd (old val : cres) : cres :=
    match old with
    | CNotGtEq => match val with CNotLeEq => CExact Uncomparable | _ => val end
    | CNotLeEq => match val with CNotGtEq => CExact Uncomparable | _ => val end
    | _ => old
    end.
  (** CmpCacheInsert, cto_cmpcache.c:137-210 *)
  Definition cache_insert (c : cache) (t1 d1 t2 d2 : Z) (ins : cres) : bool * cache :=
    if isvar t1 || isvar t2 then (false, c)
    else let (nat_order, key) := prepare_key t1 d1 t2 d2 in
         let val := if nat_order then ins else cinv ins in
         match find qkey cres quad_cmp c key with
         | (Some (_, old), c') => (false, set_root c' (cache_upd old val))
         | (None, c') => store qkey cres quad_cmp c' key val
         end.

  (** ** Specification *)
  (** [says v r]: the (partial) answer [v] is right when the real relation is [r] *)
  Definition says (v : cres) (r : cmp) : Prop :=
    match v with
    | CUnknown => True
    | CExact c => c = r
    | CNotGtEq => r = Lesser \/ r = Uncomparable
    | CNotLeEq => r = Greater \/ r = Uncomparable
    end.
  Inductive cop := CInsert (t1 d1 t2 d2 : Z) (v : cres) | CFind (t1 d1 t2 d2 : Z).
  Definition cstep (c : cache) (o : cop) : cache :=
    match o with CInsert t1 d1 t2 d2 v => snd (cache_insert c t1 d1 t2 d2 v) | CFind t1 d1 t2 d2 => snd (cache_find c t1 d1 t2 d2) end.
  Definition crun (os : list cop) : cache := fold_left cstep os Leaf.
End Cache.
