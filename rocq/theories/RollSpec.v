(** Specification for the rolling-hash tries: the phrases of the textbook LZ78
    and LZW parses, as strings, and the fingerprint of a string. *)
From Verif Require Import Base RollTrie.
Local Open Scope N_scope.

Definition str_dec : forall a b : list N, {a = b} + {a <> b} := list_eq_dec N.eq_dec.

(** LZ78: walk along the text as long as the current string [w] plus the next
    letter is in the dictionary [D]; otherwise add it and start again.  The
    result is the dictionary and the string begun. *)
Fixpoint lz78_run (D : list (list N)) (w text : list N) : list (list N) * list N :=
  match text with
  | [] => (D, w)
  | c :: text' =>
      if in_dec str_dec (w ++ [c]) D then lz78_run D (w ++ [c]) text'
      else lz78_run (D ++ [w ++ [c]]) [] text'
  end.
Definition lz78_dict (text : list N) : list (list N) := fst (lz78_run [[]] [] text).

(** LZW: the dictionary starts with the 256 letters, and the next phrase starts
    with the letter that ended the last one. *)
Fixpoint lzw_run (D : list (list N)) (w text : list N) : list (list N) * list N :=
  match text with
  | [] => (D, w)
  | c :: text' =>
      if in_dec str_dec (w ++ [c]) D then lzw_run D (w ++ [c]) text'
      else lzw_run (D ++ [w ++ [c]]) [c] text'
  end.
Definition letters : list (list N) := map (fun c => [N.of_nat c]) (seq 0 256).
Definition lzw_dict (text : list N) : list (list N) :=
  match text with
  | [] => letters
  | c :: text' => fst (lzw_run letters [c] text')
  end.

(** The fingerprint of a string: feed its letters to a cleared roller. *)
Definition fingerprint (r : roller) (w : list N) : N :=
  rl_key r (fold_left (rl_add r) w (rl_clear r)).
