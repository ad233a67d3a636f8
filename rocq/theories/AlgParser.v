(** Model of util/algorithm_parser/AlgorithmAST.hpp (the parser of algorithm strings) and of the
    syntax trees and their printing (ASTDef.hpp).

    The text is a list of bytes followed, in memory, by the terminating NUL of the
    std::string it comes from; the parser does read that NUL.  [POob] is a read behind the NUL, [PErr] an
    exception (ParseError, or std::out_of_range / std::length_error out of the construction of its message
    or of the result), [PFuel] a loop or recursion that has not ended within [fuel] steps. *)
From Verif Require Import Base.
Local Open Scope N_scope.

(** ASTDef.hpp:14-76 Value: a string, or a name with arguments; :77-135 Arg, with an optional keyword.
    The type annotations of Arg are left out: the parser never creates them (AlgorithmAST.hpp:134-162). *)
Inductive value := VStr (s : list N) | VInv (name : list N) (args : list (option (list N) * value)).
Definition arg : Type := option (list N) * value.

(** *** Printing: ASTDef.hpp:175-222 *)
Definition sep {A} (between : list A) (l : list (list A)) : list A :=
  match l with [] => [] | x :: r => x ++ concat (map (fun y => between ++ y) r) end.
Fixpoint print_value (v : value) : list N :=
  match v with
  | VStr s => 34 :: s ++ [34]                                               (* "s" *)
  | VInv name [] => name
  | VInv name args =>
      name ++ 40 :: sep [44; 32]                                            (* name(a, b, ...) *)
        (map (fun '(kw, v) => match kw with
                              | Some k => k ++ [32; 61; 32] ++ print_value v  (* k = v *)
                              | None => print_value v
                              end) args) ++ [41]
  end.

(** *** Parsing *)
Inductive pres (A : Type) := POk (a : A) (cur : nat) | PErr | POob | PFuel.
Arguments POk {A}. Arguments PErr {A}. Arguments POob {A}. Arguments PFuel {A}.
Definition pbind {A B} (m : pres A) (k : A -> nat -> pres B) : pres B :=
  match m with POk a c => k a c | PErr => PErr | POob => POob | PFuel => PFuel end.
Notation "'pdo' ( a , c ) <- m ; k" := (pbind m (fun a c => k)) (at level 200, a name, c name, m at level 100, k at level 200).

(** a character read at the cursor: m_text[i] *)
Definition rd (t : list N) (i : nat) : option N := nth_error (t ++ [0]) i.
(** View::slice *)
Definition sl (t : list N) (from to : nat) : list N := firstn (to - from) (skipn from t).

(** AlgorithmAST.hpp:35-42 accept_numeric, accept_non_numeric; :188-191 whitespace; :167-169, :178-181 identifiers *)
Definition is_num (c : N) : bool := (c =? 45) || (c =? 46) || ((48 <=? c) && (c <=? 57)).
Definition non_num (c : N) : bool := negb (is_num c).
Definition is_ws (c : N) : bool := (c =? 32) || (c =? 10) || (c =? 13) || (c =? 9).
Definition id_start (c : N) : bool := (c =? 95) || ((97 <=? c) && (c <=? 122)) || ((65 <=? c) && (c <=? 90)).
Definition id_char (c : N) : bool := id_start c || ((48 <=? c) && (c <=? 57)).

(** AlgorithmAST.hpp:60-62 *)
Definition has_next (t : list N) (cur : nat) : bool := (cur <? length t)%nat.
(** AlgorithmAST.hpp:187-198 parse_whitespace *)
Fixpoint ws_loop (fuel : nat) (t : list N) (cur : nat) : pres unit :=
  match fuel with
  | O => PFuel
  | S f => match rd t cur with
           | None => POob
           | Some c => if is_ws c then ws_loop f t (S cur) else POk tt cur
           end
  end.
Definition parse_ws (t : list N) (cur : nat) : pres unit :=
  if has_next t cur then ws_loop (S (length t)) t cur else POk tt cur.
(** AlgorithmAST.hpp:206-212 peek_char *)
Definition peek_char (t : list N) (acc : N -> bool) (cur : nat) : pres bool :=
  if has_next t cur then
    pdo (_, cur) <- parse_ws t cur;
    match rd t cur with None => POob | Some c => POk (acc c) cur end
  else POk false cur.
(** AlgorithmAST.hpp:199-205 parse_char *)
Definition parse_char (t : list N) (acc : N -> bool) (cur : nat) : pres bool :=
  pdo (r, cur) <- peek_char t acc cur; POk r (if r then S cur else cur).
(** AlgorithmAST.hpp:213-243 parse_string.  At the end of the text without a delimiter, end stays
    start - 1: an error.  For start = 0 that is 2^64 - 1 and the slice is not cut: the construction of the
    std::string throws. *)
Fixpoint string_loop (fuel : nat) (t : list N) (delim : N -> bool) (enclose : bool) (start cur : nat) : pres (list N) :=
  match fuel with
  | O => PFuel
  | S f =>
      if has_next t cur then
        pdo (hit, cur) <- (if enclose then parse_char t delim cur else peek_char t delim cur);
        if hit then POk (sl t start (if enclose then cur - 1 else cur)) cur
        else string_loop f t delim enclose start (S cur)
      else PErr
  end.
Definition parse_string (t : list N) (delim : N -> bool) (enclose : bool) (cur : nat) : pres (list N) :=
  pdo (go, cur) <- (if enclose then parse_char t delim cur else POk true cur);
  if go then string_loop (S (length t)) t delim enclose cur cur else PErr.
(** AlgorithmAST.hpp:163-186 parse_ident *)
Fixpoint ident_loop (fuel : nat) (t : list N) (cur : nat) : pres unit :=
  match fuel with
  | O => PFuel
  | S f => if has_next t cur then
             match rd t cur with
             | None => POob
             | Some c => if id_char c then ident_loop f t (S cur) else POk tt cur
             end
           else POk tt cur
  end.
Definition parse_ident (t : list N) (cur : nat) : pres (list N) :=
  pdo (_, start) <- parse_ws t cur;
  if has_next t start then
    match rd t start with
    | None => POob
    | Some c => if id_start c then pdo (_, cur) <- ident_loop (S (length t)) t (S start); POk (sl t start cur) cur
                else POk [] start
    end
  else POk [] start.
(** AlgorithmAST.hpp:252-258 expect_ident *)
Definition expect_ident (t : list N) (cur : nat) : pres (list N) :=
  pdo (i, cur) <- parse_ident t cur; match i with [] => PErr | _ => POk i cur end.

Definition list_eqb (a b : list N) : bool := if list_eq_dec N.eq_dec a b then true else false.
Definition str_true : list N := [116; 114; 117; 101].
Definition str_false : list N := [102; 97; 108; 115; 101].
Definition str_chain : list N := [99; 104; 97; 105; 110].
Definition is_boolean (s : list N) : bool := list_eqb s str_true || list_eqb s str_false.
Definition ch (a c : N) : bool := c =? a.

(** AlgorithmAST.hpp:64-115 parse_single_value (in two parts), :117-126 parse_value, :128-162 parse_arg *)
Fixpoint parse_single (fuel : nat) (t : list N) (already : list N) (cur : nat) : pres value :=
  match fuel with
  | O => PFuel
  | S f =>
      pdo (_, cur) <- parse_ws t cur;
      match already with
      | _ :: _ => single_named f t already cur
      | [] =>
          pdo (q, cur) <- peek_char t (ch 34) cur;
          if q then pdo (s, cur) <- parse_string t (ch 34) true cur; POk (VStr s) cur else
          pdo (q, cur) <- peek_char t (ch 39) cur;
          if q then pdo (s, cur) <- parse_string t (ch 39) true cur; POk (VStr s) cur else
          pdo (q, cur) <- peek_char t is_num cur;
          if q then pdo (s, cur) <- parse_string t non_num false cur; POk (VStr s) cur else
          pdo (name, cur) <- expect_ident t cur;
          single_named f t name cur
      end
  end
with single_named (fuel : nat) (t : list N) (name : list N) (cur : nat) : pres value :=
  match fuel with
  | O => PFuel
  | S f =>
      if is_boolean name then POk (VStr name) cur else
      pdo (_, cur) <- parse_ws t cur;
      pdo (q, cur) <- parse_char t (ch 40) cur;
      if q then pdo (args, cur) <- args_loop f t true cur; POk (VInv name args) cur
      else POk (VInv name []) cur
  end
with args_loop (fuel : nat) (t : list N) (first : bool) (cur : nat) : pres (list arg) :=
  match fuel with
  | O => PFuel
  | S f =>
      pdo (_, cur) <- parse_ws t cur;
      pdo (q, cur) <- parse_char t (ch 41) cur;
      if q then POk [] cur else
      pdo (go, cur) <- (if first then POk true cur else parse_char t (ch 44) cur);
      if go then
        pdo (q, cur) <- parse_char t (ch 41) cur;
        if q then POk [] cur else
        pdo (a, cur) <- parse_arg f t cur;
        pdo (r, cur) <- args_loop f t false cur;
        POk (a :: r) cur
      else PErr
  end
with parse_arg (fuel : nat) (t : list N) (cur : nat) : pres arg :=
  match fuel with
  | O => PFuel
  | S f =>
      pdo (ident, cur) <- parse_ident t cur;
      pdo (kw, cur) <- match ident with [] => POk false cur | _ => parse_char t (ch 61) cur end;
      if kw then pdo (v, cur) <- parse_value f t [] cur; POk (Some ident, v) cur
      else pdo (v, cur) <- parse_value f t ident cur; POk (None, v) cur
  end
with parse_value (fuel : nat) (t : list N) (already : list N) (cur : nat) : pres value :=
  match fuel with
  | O => PFuel
  | S f => pdo (v, cur) <- parse_single f t already cur; chain_loop f t v cur
  end
with chain_loop (fuel : nat) (t : list N) (v : value) (cur : nat) : pres value :=
  match fuel with
  | O => PFuel
  | S f =>
      pdo (q, cur) <- parse_char t (ch 58) cur;
      if q then pdo (v2, cur) <- parse_single f t [] cur;
                chain_loop f t (VInv str_chain [(None, v); (None, v2)]) cur
      else POk v cur
  end.

(** Registry.hpp:221-226, CreateAlgorithm.hpp:43-46: Parser p { text }; p.parse_value(), from the start of the text; what
    follows the value is not looked at *)
Definition parse_text (fuel : nat) (t : list N) : pres value := parse_value fuel t [] 0.
