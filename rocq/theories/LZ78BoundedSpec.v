(** What decompressing a bounded-dictionary LZ78 file yields, as a function of
    the text alone (no tries, no node numbers, no coders). *)
From Verif Require Import Base.
Local Open Scope N_scope.

(** Position of a phrase in a list of phrases. *)
Fixpoint index_of (w : list N) (D : list (list N)) : option nat :=
  match D with
  | [] => None
  | u :: D => if list_eq_dec N.eq_dec u w then Some O else option_map S (index_of w D)
  end.

(** The textbook LZ78 parse with an unlimited dictionary: [D] the phrases so far,
    [w] the match so far; the last factor may be a known phrase. *)
Fixpoint lz78_parse (D : list (list N)) (w text : list N) : list (list N) :=
  match text with
  | [] => match w with [] => [] | _ => [w] end
  | c :: text' =>
      match index_of (w ++ [c]) D with
      | Some _ => lz78_parse D (w ++ [c]) text'
      | None => (w ++ [c]) :: lz78_parse (D ++ [w ++ [c]]) [] text'
      end
  end.
Definition lz78_factors (text : list N) : list (list N) := lz78_parse [] [] text.

(** The number a phrase has in its own epoch's dictionary [D], read in the first
    epoch's dictionary ([F] once the first epoch is over, [D] itself before). *)
Definition reread (F : option (list (list N))) (D : list (list N)) (w : list N) : list N :=
  match index_of w D with
  | Some i => nth i (match F with None => D | Some F => F end) []
  | None => []
  end.

(** The text obtained: the LZ78 parse is restarted with an empty dictionary
    whenever it holds dms - 1 phrases (and never for dms <= 1), and each factor
    phrase+letter is read back with the phrase looked up in the first epoch. *)
Fixpoint lz78_reread (dms : N) (F : option (list (list N))) (D : list (list N)) (w text : list N)
  : list N :=
  match text with
  | [] => match w with [] => [] | _ => reread F D (removelast w) ++ [last w 0] end
  | c :: text' =>
      match index_of (w ++ [c]) D with
      | Some _ => lz78_reread dms F D (w ++ [c]) text'
      | None =>
          let D' := D ++ [w ++ [c]] in
          reread F D w ++ c ::
          (if N.of_nat (length D') + 1 =? dms
           then lz78_reread dms (Some (match F with None => D' | Some F => F end)) [] [] text'
           else lz78_reread dms F D' [] text')
      end
  end.
Definition lz78_read_back (dms : N) (text : list N) : list N := lz78_reread dms None [] [] text.

(** The text without the NUL bytes that stand where a phrase of the LZ78 parse would
    start (the parse goes on with the next byte as if the NUL were not there). *)
Fixpoint lz78_drop (D : list (list N)) (w text : list N) : list N :=
  match text with
  | [] => []
  | c :: text' =>
      match w, c with
      | [], 0 => lz78_drop D [] text'
      | _, _ =>
          c :: match index_of (w ++ [c]) D with
               | Some _ => lz78_drop D (w ++ [c]) text'
               | None => lz78_drop (D ++ [w ++ [c]]) [] text'
               end
      end
  end.
Definition lz78_without_nul_starts (text : list N) : list N := lz78_drop [] [] text.
