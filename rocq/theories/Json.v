(** Model of tudocomp_stat/Json.hpp. *)
From Coq Require Import ZArith.
From Verif Require Import Base Coders.
Local Open Scope N_scope.

(** The values (Json.hpp:20-235): TValue<T> of an integer type, TValue<char>,
    TValue<std::string>, Array, Object.  An object's std::map is the list of its
    fields in key order. *)
Inductive jv :=
| JInt (z : Z)
| JChr (c : N)
| JStr (s : list N)
| JArr (l : list jv)
| JObj (fs : list (list N * jv)).

(** std::map<std::string, ...>::operator[] = (Json.hpp:167-193 set): keys in byte order *)
Fixpoint key_lt (a b : list N) : bool :=
  match a, b with
  | [], [] => false
  | [], _ :: _ => true
  | _ :: _, [] => false
  | x :: a, y :: b => if x <? y then true else if y <? x then false else key_lt a b
  end.
Fixpoint jset (fs : list (list N * jv)) (k : list N) (v : jv) : list (list N * jv) :=
  match fs with
  | [] => [(k, v)]
  | (k', v') :: r => if key_lt k k' then (k, v) :: fs
                     else if key_lt k' k then (k', v') :: jset r k v else (k, v) :: r
  end.

(** std::string::find(quote_char, pos): index of the first quote at or after [pos] *)
Fixpoint find_quote (s : list N) (i pos : nat) : option nat :=
  match s with
  | [] => None
  | c :: r => if (pos <=? i)%nat && (c =? 34) then Some i else find_quote r (S i) pos
  end.
(** Json.hpp:77-90, the constructor of TValue<std::string>: each quote is replaced by backslash, quote;
    each turn handles one quote, so length s turns are enough *)
Fixpoint esc_loop (fuel : nat) (s : list N) (pos : nat) : option (list N) :=
  match find_quote s 0 pos with
  | None => Some s
  | Some x =>
      match fuel with
      | O => None
      | S fuel => esc_loop fuel (firstn x s ++ [92; 34] ++ skipn (x + 1) s) (x + 2)
      end
  end.
Definition escape (s : list N) : option (list N) := esc_loop (length s) s 0.

(** ostream << integer *)
Definition int_str (z : Z) : option (list N) :=
  do d <- dec_digits (Z.abs_N z); Some (if (z <? 0)%Z then 45 :: d else d).

(** Json.hpp:15-17 level_indent *)
Definition level_indent (level : nat) : list N := repeat 32 (4 * level).

(** Json.hpp:53-58, 64-75, 92-95 TValue::str; :137-145 Array::str; :201-218 Object::str
    (keys are written as they are) *)
Fixpoint jstr (level : nat) (v : jv) : option (list N) :=
  match v with
  | JInt z => int_str z
  | JChr c => Some ([34] ++ (if c =? 34 then [92; 34] else [c]) ++ [34])
  | JStr s => do e <- escape s; Some ([34] ++ e ++ [34])
  | JArr l =>
      do b <- (fix go (l : list jv) : option (list N) :=
                 match l with
                 | [] => Some []
                 | v :: r => do a <- jstr level v; do b <- go r;
                             Some (a ++ (match r with [] => [] | _ => [44] end) ++ b)
                 end) l;
      Some ([91] ++ b ++ [93])
  | JObj fs =>
      do b <- (fix go (fs : list (list N * jv)) : option (list N) :=
                 match fs with
                 | [] => Some []
                 | (k, v) :: r =>
                     do a <- jstr (level + 1) v; do b <- go r;
                     Some (level_indent (level + 1) ++ [34] ++ k ++ [34; 58; 32] ++ a ++
                           (match r with [] => [] | _ => [44] end) ++ [10] ++ b)
                 end) fs;
      Some ([123; 10] ++ b ++ level_indent level ++ [125])
  end.
