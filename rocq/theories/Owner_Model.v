(** Model of crates/ruby-analysis/src/core/ruby_namespace.rs: generated owners and constants.
    Strings are their UTF-8 bytes; interning (Ustr) keeps equality. [None] is any Err. *)
From Coq Require Import List Arith NArith Bool.
From Verif Require Import Text_Lib.
Import ListNotations.

Definition COLON := 58%N.
(** GENERATED_OWNER_PREFIX (5): "\0ruby-fast-lsp-generated-owner:". *)
Definition prefix : list N :=
  [0; 114; 117; 98; 121; 45; 102; 97; 115; 116; 45; 108; 115; 112; 45; 103; 101; 110; 101; 114; 97; 116; 101; 100;
   45; 111; 119; 110; 101; 114; 58]%N.

(** Display of usize. *)
Fixpoint digits_from (fuel : nat) (n : N) : list N :=
  match fuel with
  | 0 => []
  | S f => if (n <? 10)%N then [48 + n]%N else digits_from f (n / 10)%N ++ [48 + n mod 10]%N
  end.
Definition digits (n : nat) : list N := digits_from (S n) (N.of_nat n).

(** str::parse::<usize> (std): an optional "+", then at least one digit; overflow is an error. *)
Fixpoint value (acc : N) (l : list N) : option N :=
  match l with
  | [] => Some acc
  | c :: r =>
      if (48 <=? c)%N && (c <=? 57)%N then
        let v := (acc * 10 + (c - 48))%N in
        if (v <=? 18446744073709551615)%N then value v r else None
      else None
  end.
Definition parse_usize (l : list N) : option N :=
  let d := match l with c :: r => if (c =? 43)%N then r else l | [] => l end in
  match d with [] => None | _ => value 0 d end.

(** GeneratedOwnerId::new (11-37). *)
Definition component_ok (c : list N) : bool :=
  negb (match c with [] => true | _ => false end) && (N.of_nat (length c) <=? 4096)%N.
Definition part (c : list N) : list N := digits (length c) ++ COLON :: c.
Definition owner_id (extension source loc : list N) : option (list N) :=
  if component_ok extension && component_ok source && component_ok loc
  then Some (prefix ++ part extension ++ part source ++ part loc) else None.

Fixpoint strip_prefix (p l : list N) : option (list N) :=
  match p, l with
  | [], _ => Some l
  | x :: p', y :: l' => if (x =? y)%N then strip_prefix p' l' else None
  | _, [] => None
  end.
(** is_generated_owner (113-115). *)
Definition is_generated (s : list N) : bool := match strip_prefix prefix s with Some _ => true | None => false end.
(** generated_owner (70-76): [None] is the assertion. *)
Definition generated_owner (id : list N) : option (list N) := if is_generated id then Some id else None.

(** remainder.find(':'), then the two sides. *)
Fixpoint until_colon (l : list N) : option (list N * list N) :=
  match l with
  | [] => None
  | c :: r =>
      if (c =? COLON)%N then Some ([], r)
      else match until_colon r with Some (a, b) => Some (c :: a, b) | None => None end
  end.
(** str::is_char_boundary (std) on bytes. *)
Definition char_boundary (l : list N) (i : nat) : bool :=
  match nth_error l i with
  | Some b => negb ((128 <=? b)%N && (b <? 192)%N)
  | None => i =? length l
  end.
(** One turn of the loop of from_canonical_generated_owner (84-102). *)
Definition take_component (l : list N) : option (list N * list N) :=
  match until_colon l with
  | None => None
  | Some (d, r) =>
      match parse_usize d with
      | None => None
      | Some n =>
          if (n =? 0)%N || (4096 <? n)%N then None
          else
            let n := N.to_nat n in
            if (length r <? n) || negb (char_boundary r n) then None
            else Some (firstn n r, skipn n r)
      end
  end.
Definition take_components (l : list N) : option (list N * list N * list N * list N) :=
  match take_component l with
  | None => None
  | Some (a, l1) =>
      match take_component l1 with
      | None => None
      | Some (b, l2) =>
          match take_component l2 with
          | None => None
          | Some (c, l3) => Some (a, b, c, l3)
          end
      end
  end.
(** from_canonical_generated_owner (78-111). *)
Definition from_canonical (identity : list N) : option (list N) :=
  match strip_prefix prefix identity with
  | None => None
  | Some r =>
      match take_components r with
      | Some (a, b, c, []) =>
          match owner_id a b c with
          | Some k => if list_eq_dec N.eq_dec k identity then Some k else None
          | None => None
          end
      | _ => None
      end
  end.

(** RubyConstant::new (50-68); the three Unicode tables are arguments. *)
Section Constant.
  Variables xid_start xid_continue uppercase : N -> bool.
  Definition constant (name : text) : option (list N) :=
    match name with
    | [] => None
    | c :: r =>
        if xid_start c && uppercase c && forallb xid_continue r then Some (bytes name) else None
    end.
End Constant.
