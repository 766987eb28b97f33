(** * Base: characters, strings, UTF-8 and the few [std::str] operations the code uses.

    Rust [char]s are Unicode scalar values; here they are code points in [N].
    A Rust [&str] is a list of characters together with its UTF-8 layout, so
    every byte offset the code computes is recovered with [blen]/[drop_bytes].
    A Rust [Vec<u8>] is a list of bytes in [N]. *)
From Coq Require Export List NArith ZArith Lia Bool Arith.
From Coq Require Import Ascii String.
Export ListNotations.

Definition str := list N.
Definition bytes := list N.

(** ASCII literal to [str]. *)
Fixpoint s2l (s : string) : str :=
  match s with
  | EmptyString => []
  | String a r => N_of_ascii a :: s2l r
  end.
Arguments s2l s%string.

(** Reasons for a Rust panic (debug build: arithmetic overflow panics). *)
Inductive panic :=
| PSlice          (* str slice out of range / not on a char boundary *)
| PIndex          (* Vec index out of bounds *)
| PUnwrap         (* Option/Result::unwrap on None/Err *)
| PUnreachable    (* unreachable!() *)
| PUnimplemented  (* unimplemented!() *)
| POverflow       (* arithmetic underflow/overflow *)
| PAssert.        (* assert!/assert_eq! *)

(** [char::len_utf8]. *)
Definition clen (c : N) : nat :=
  if (c <? 128)%N then 1 else if (c <? 2048)%N then 2 else if (c <? 65536)%N then 3 else 4.

(** [str::len] (bytes). *)
Fixpoint blen (s : str) : nat :=
  match s with [] => 0 | c :: r => clen c + blen r end.

(** [&s[n..]]: [None] is the slice panic. *)
Fixpoint drop_bytes (n : nat) (s : str) : option str :=
  match n with
  | O => Some s
  | S _ =>
    match s with
    | [] => None
    | c :: r => if clen c <=? n then drop_bytes (n - clen c) r else None
    end
  end.

(** [&s[..n]]: [None] is the slice panic. *)
Fixpoint take_bytes (n : nat) (s : str) : option str :=
  match n with
  | O => Some []
  | S _ =>
    match s with
    | [] => None
    | c :: r =>
      if clen c <=? n then
        match take_bytes (n - clen c) r with Some t => Some (c :: t) | None => None end
      else None
    end
  end.

Fixpoint str_eqb (a b : str) : bool :=
  match a, b with
  | [], [] => true
  | x :: a', y :: b' => (x =? y)%N && str_eqb a' b'
  | _, _ => false
  end.

(** [s.starts_with(p)]. *)
Fixpoint starts_with (p s : str) : bool :=
  match p, s with
  | [], _ => true
  | x :: p', y :: s' => (x =? y)%N && starts_with p' s'
  | _ :: _, [] => false
  end.

(** [s.starts_with(c)] for a single char. *)
Definition starts_with_c (c : N) (s : str) : bool :=
  match s with x :: _ => (x =? c)%N | [] => false end.

(** [s.chars().position(f)]: a char index. *)
Fixpoint position (f : N -> bool) (s : str) : option nat :=
  match s with
  | [] => None
  | c :: r => if f c then Some 0 else match position f r with Some n => Some (S n) | None => None end
  end.

(** [s.find(p)]: a byte index. *)
Fixpoint find_sub (p s : str) : option nat :=
  if starts_with p s then Some 0 else
  match s with
  | [] => None
  | c :: r => match find_sub p r with Some n => Some (clen c + n) | None => None end
  end.

(** [s.lines().count()]: lines are terminated by ['\n'], a final unterminated
    non-empty line counts, a trailing empty one does not. *)
Fixpoint lines_count (s : str) : nat :=
  match s with
  | [] => 0
  | c :: r => if (c =? 10)%N then S (lines_count r)
              else match r with [] => 1 | d :: r' => if (d =? 10)%N then S (lines_count r') else lines_count r end
  end.

(** ASCII lower-casing ([str::to_lowercase] on the ASCII strings it is applied to). *)
Definition lower1 (c : N) : N := if ((65 <=? c) && (c <=? 90))%N then (c + 32)%N else c.
Definition to_lower (s : str) : str := map lower1 s.

(** ** UTF-8 *)

(** [char::encode_utf8]. *)
Definition enc1 (c : N) : bytes :=
  (if c <? 128 then [c]
   else if c <? 2048 then [192 + c / 64; 128 + c mod 64]
   else if c <? 65536 then [224 + c / 4096; 128 + (c / 64) mod 64; 128 + c mod 64]
   else [240 + c / 262144; 128 + (c / 4096) mod 64; 128 + (c / 64) mod 64; 128 + c mod 64])%N.

(** [str::as_bytes]. *)
Definition encode (s : str) : bytes := flat_map enc1 s.

Definition is_cont (b : N) : bool := ((128 <=? b) && (b <? 192))%N.
Definition is_scalar (c : N) : bool :=
  ((c <? 55296) || ((57344 <=? c) && (c <? 1114112)))%N.

(** One character off a byte string: strict UTF-8 (no overlong forms, no
    surrogates, nothing above U+10FFFF), as [String::from_utf8] requires. *)
Definition dec1 (bs : bytes) : option (N * bytes) :=
  match bs with
  | [] => None
  | b0 :: r0 =>
    if (b0 <? 128)%N then Some (b0, r0)
    else if (b0 <? 192)%N then None
    else if (b0 <? 224)%N then
      match r0 with
      | b1 :: r1 =>
        let c := ((b0 - 192) * 64 + (b1 - 128))%N in
        if is_cont b1 && (128 <=? c)%N then Some (c, r1) else None
      | _ => None
      end
    else if (b0 <? 240)%N then
      match r0 with
      | b1 :: b2 :: r2 =>
        let c := ((b0 - 224) * 4096 + (b1 - 128) * 64 + (b2 - 128))%N in
        if is_cont b1 && is_cont b2 && (2048 <=? c)%N && is_scalar c then Some (c, r2) else None
      | _ => None
      end
    else if (b0 <? 248)%N then
      match r0 with
      | b1 :: b2 :: b3 :: r3 =>
        let c := ((b0 - 240) * 262144 + (b1 - 128) * 4096 + (b2 - 128) * 64 + (b3 - 128))%N in
        if is_cont b1 && is_cont b2 && is_cont b3 && (65536 <=? c)%N && is_scalar c then Some (c, r3) else None
      | _ => None
      end
    else None
  end.

(** [String::from_utf8]; the fuel is the number of bytes, each round eats one. *)
Fixpoint decode_fuel (n : nat) (bs : bytes) : option str :=
  match bs with
  | [] => Some []
  | _ =>
    match n with
    | O => None
    | S n' =>
      match dec1 bs with
      | Some (c, r) => match decode_fuel n' r with Some s => Some (c :: s) | None => None end
      | None => None
      end
    end
  end.
Definition from_utf8 (bs : bytes) : option str := decode_fuel (List.length bs) bs.

(** ** Numbers *)

(** [char::to_digit(radix)]. *)
Definition digit_val (radix c : N) : option N :=
  (let v := if (48 <=? c) && (c <=? 57) then Some (c - 48)
            else if (97 <=? c) && (c <=? 122) then Some (c - 87)
            else if (65 <=? c) && (c <=? 90) then Some (c - 55)
            else None in
  match v with Some d => if d <? radix then Some d else None | None => None end)%N.

Fixpoint digits_val (radix : N) (acc : N) (s : str) : option N :=
  match s with
  | [] => Some acc
  | c :: r => match digit_val radix c with
              | Some d => digits_val radix (acc * radix + d)%N r
              | None => None
              end
  end.

(** [T::from_str_radix(s, radix)] for an unsigned digit string and the maximal
    value [max]; [None] is any [ParseIntError] (empty, bad digit, overflow).
    The sign handling of the Rust function is dropped: no caller passes a sign. *)
Definition from_str_radix (radix max : N) (s : str) : option Z :=
  match s with
  | [] => None
  | _ => match digits_val radix 0 s with
         | Some n => if (n <=? max)%N then Some (Z.of_N n) else None
         | None => None
         end
  end.
Definition i64_max : N := 9223372036854775807.
Definition i64_from_str_radix (radix : N) (s : str) : option Z := from_str_radix radix i64_max s.

Definition is_digit (c : N) : bool := ((48 <=? c) && (c <=? 57))%N.

(** [f64::from_str] on the strings the tokenizer builds (digits with one dot):
    it fails exactly when there is no digit.  The float itself is kept
    symbolically as its literal. *)
Definition f64_from_str (s : str) : option str :=
  if existsb is_digit s then Some s else None.
