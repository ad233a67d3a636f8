(** Model of compressors/RePairCompressor.hpp. *)
From Verif Require Import Base BitIO IntCodes Coders.
Local Open Scope N_scope.

(** RePairCompressor.hpp:23-33 digram, left, right; sym_t = uint32_t, digram_t = uint64_t *)
Definition digram (l r : N) : N := N.lor (N.shiftl l 32) r.
Definition d_left (d : N) : N := w32 (N.shiftr d 32).
Definition d_right (d : N) : N := w32 d.

(** std::unordered_map<digram_t, size_t>, absent entries are 0 *)
Fixpoint cnt_get (m : list (N * nat)) (d : N) : nat :=
  match m with [] => O | (d', c) :: r => if d =? d' then c else cnt_get r d end.

(** RePairCompressor.hpp:129-151, the counting loop; the caller made sure that n > 0 *)
Fixpoint count_loop (fuel : nat) (n : nat) (text : list N) (next : list nat)
    (i : nat) (cnt : list (N * nat)) (mx : N) (mc : nat) : option (N * nat) :=
  match fuel with
  | O => None
  | S fuel =>
      if (i <? n - 1)%nat then
        do j <- nth_error next i;
        if (n <=? j)%nat then Some (mx, mc) else
        do a <- nth_error text i;
        do b <- nth_error text j;
        let di := digram a b in
        let c := (cnt_get cnt di + 1)%nat in
        let cnt := (di, c) :: cnt in
        if (mc <? c)%nat then count_loop fuel n text next j cnt di c
        else count_loop fuel n text next j cnt mx mc
      else Some (mx, mc)
  end.

(** RePairCompressor.hpp:159-175, the replacement loop *)
Fixpoint replace_loop (fuel : nat) (n : nat) (mx new_sym : N) (text : list N) (next : list nat) (i : nat)
    : option (list N * list nat) :=
  match fuel with
  | O => None
  | S fuel =>
      if (i <? n - 1)%nat then
        do j <- nth_error next i;
        if (n <=? j)%nat then Some (text, next) else
        do a <- nth_error text i;
        do b <- nth_error text j;
        if digram a b =? mx then
          do k <- nth_error next j;
          let text := upd text i new_sym in
          let next := upd next i k in
          replace_loop fuel n mx new_sym text next k
        else replace_loop fuel n mx new_sym text next j
      else Some (text, next)
  end.

(** RePairCompressor.hpp:123-178, the main loop; [max_rules] after :98-99 *)
Fixpoint rp_loop (fuel : nat) (n : nat) (max_rules : N) (text : list N) (next : list nat) (g : list N)
    : option (list N * list nat * list N) :=
  match fuel with
  | O => None
  | S fuel =>
      do (mx, mc) <- count_loop (n + 1) n text next 0 [] 0 0;
      if (1 <? mc)%nat then
        let new_sym := w32 (256 + N.of_nat (length g)) in
        let g := g ++ [mx] in
        do (text, next) <- replace_loop (n + 1) n mx new_sym text next 0;
        if N.of_nat (length g) <? max_rules then rp_loop fuel n max_rules text next g
        else Some (text, next, g)
      else Some (text, next, g)
  end.

(** the iteration "i = 0; i < n; i = next[i]" (:68-75 in Literals, :255-263 in compress) *)
Fixpoint walk (fuel : nat) (n : nat) (text : list N) (next : list nat) (i : nat) : option (list N) :=
  match fuel with
  | O => None
  | S fuel =>
      if (i <? n)%nat then
        do a <- nth_error text i; do j <- nth_error next i; do r <- walk fuel n text next j; Some (a :: r)
      else Some []
  end.

(** RePairCompressor.hpp:47-82 class Literals: the text symbols truncated to a
    byte, then the terminals of the rules *)
Definition rp_literals (seq g : list N) : list N :=
  map w8 seq ++
  flat_map (fun d => (if d_left d <? 256 then [w8 (d_left d)] else []) ++
                     (if d_right d <? 256 then [w8 (d_right d)] else [])) g.

(** RePairCompressor.hpp:215-223 encode_sym *)
Definition sym_calls (x r : N) : list call :=
  if x <? 256 then [(0, RBit); (x, RLit)] else [(1, RBit); (x - 256, RInt 0 r)].
(** RePairCompressor.hpp:229-246; [i]: index of the first rule of the list *)
Fixpoint rule_calls (i : nat) (g : list N) : list call :=
  match g with
  | [] => []
  | d :: g => sym_calls (d_left d) (N.of_nat i) ++ sym_calls (d_right d) (N.of_nat i) ++ rule_calls (S i) g
  end.
(** RePairCompressor.hpp:212-263, all calls of the encoder *)
Definition rp_calls (seq g : list N) : list call :=
  (N.of_nat (length g), RInt 0 (2 ^ 32 - 1)) :: rule_calls 0 g ++
  flat_map (fun x => sym_calls x (N.of_nat (length g))) seq.

(** RePairCompressor.hpp:96-271 compress.  [None] for the empty input: with n = 0 the bound
    n - 1 of the counting loop wraps to 2^32-1 and next[0] is read outside the array. *)
Definition rp_compress (max_rules : N) (c : coder) (input : list N) : option (list N) :=
  let max_rules := if max_rules =? 0 then 2 ^ 64 - 1 else max_rules in
  let n := length input in
  match n with
  | O => None
  | _ =>
      do (x, g) <- rp_loop n n max_rules input (seq 1 n) [];
      let (text, next) := x in
      do sq <- walk (n + 1) n text next 0;
      c_enc c (rp_literals sq g) (rp_calls sq g)
  end.

(** RePairCompressor.hpp:274-284 decode; [fuel] bounds the recursion *)
Fixpoint rp_expand (fuel : nat) (g : list N) (x : N) : option (list N) :=
  match fuel with
  | O => None
  | S fuel =>
      if x <? 256 then Some [w8 x]
      else
        do d <- nth_error g (N.to_nat (x - 256));
        do a <- rp_expand fuel g (d_left d);
        do b <- rp_expand fuel g (d_right d);
        Some (a ++ b)
  end.

(** RePairCompressor.hpp:292-301 decode_sym *)
Definition decode_sym (c : coder) (r : N) (s : c_st c) : option (N * c_st c) :=
  do (b, s) <- c_dec c RBit s;
  if b =? 0 then c_dec c RLit s
  else do (v, s) <- c_dec c (RInt 0 r) s; Some (w32 (256 + w32 v), s).
(** RePairCompressor.hpp:304-313 *)
Fixpoint decode_rules (c : coder) (k : nat) (g : list N) (s : c_st c) : option (list N * c_st c) :=
  match k with
  | O => Some (g, s)
  | S k =>
      do (l, s) <- decode_sym c (N.of_nat (length g)) s;
      do (r, s) <- decode_sym c (N.of_nat (length g)) s;
      decode_rules c k (g ++ [digram l r]) s
  end.
(** RePairCompressor.hpp:330-335 *)
Fixpoint decode_text (c : coder) (fuel : nat) (g : list N) (s : c_st c) : option (list N) :=
  if c_eof c s then Some [] else
  match fuel with
  | O => None
  | S fuel =>
      do (x, s) <- decode_sym c (N.of_nat (length g)) s;
      do a <- rp_expand (S (length g)) g x;
      do r <- decode_text c fuel g s;
      Some (a ++ r)
  end.
(** RePairCompressor.hpp:287-336 decompress *)
Definition rp_decompress (c : coder) (fuel : nat) (f : list N) : option (list N) :=
  do s <- c_open c f;
  do (k, s) <- c_dec c (RInt 0 (2 ^ 32 - 1)) s;
  do (g, s) <- decode_rules c (N.to_nat k) [] s;
  decode_text c fuel g s.
