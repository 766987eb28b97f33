(** * Interner: src/interner.rs

    An [Rc<String>] is a shared allocation, so here an interned string is an
    allocation number together with its contents.  The hash map is the list of
    its entries; [get] finds the entry whose key has the requested contents,
    which is what [Borrow<str>] with [Eq]/[Hash] on the contents gives. *)
From Verif Require Import Base.

(** src/interner.rs:11-18 [RcStr(Rc<String>)]. *)
Record rcstr := mkRc { rc_id : nat; rc_str : str }.

(** src/interner.rs:29-31 [Interner]; [next] numbers the allocations. *)
Record interner := mkInterner { strs : list (rcstr * rcstr); next : nat }.

(** src/interner.rs:34-36 [Interner::new]. *)
Definition interner_new : interner := mkInterner [] 0.

(** [HashMap::get] of src/interner.rs:42. *)
Fixpoint get (m : list (rcstr * rcstr)) (s : str) : option rcstr :=
  match m with
  | [] => None
  | (k, v) :: r => if str_eqb (rc_str k) s then Some v else get r s
  end.

(** src/interner.rs:41-48 [Interner::intern]. *)
Definition intern (i : interner) (s : str) : rcstr * interner :=
  match get (strs i) s with
  | Some r => (r, i)
  | None =>
    let r := mkRc (next i) s in
    (r, mkInterner ((r, r) :: strs i) (S (next i)))
  end.
