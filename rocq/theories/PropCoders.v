(** Property C06: the ASCII, Bit, Elias-gamma, Elias-delta and Ternary coders. *)
From Verif Require Import Base BitIO BitIOProofs IntCodes IntCodesProofs Coders CodersProofs.
Local Open Scope N_scope.

(** C06. Any sequence of encode(value, range) calls, each value in its range, is
    decoded in order from the closed file; afterwards eof() is true. *)
Theorem coder_roundtrip : forall k cs, Forall call_ok cs ->
  exists f s', enc_file k cs = Some f /\
    dec_calls bis_read_bit dfuel k (map snd cs) (bis_open f) = Some (map fst cs, s') /\
    bis_eof s' = true.
Proof. exact coder_seq_pf. Qed.
Print Assumptions coder_roundtrip.

(** C06. As long as a value is left, eof() is false. *)
Theorem coder_no_early_eof : forall k cs c cs', Forall call_ok (cs ++ c :: cs') ->
  exists f s', enc_file k (cs ++ c :: cs') = Some f /\
    dec_calls bis_read_bit dfuel k (map snd cs) (bis_open f) = Some (map fst cs, s') /\
    bis_eof s' = false.
Proof. exact coder_noeof_pf. Qed.
Print Assumptions coder_no_early_eof.

(** Hence each of them is a correct coder in the sense the compressor theorems use. *)
Theorem simple_coders_ok : forall k, coder_ok (simple_coder k).
Proof. exact simple_coder_ok. Qed.
Print Assumptions simple_coders_ok.

(** The ASCII and Bit coders also accept literals passed as signed [char]. *)
Theorem ascii_bit_coders_ok_char : coder_ok_char (simple_coder Ascii) /\ coder_ok_char (simple_coder BitC).
Proof. exact (conj (simple_coder_ok_char Ascii eq_refl) (simple_coder_ok_char BitC eq_refl)). Qed.
Print Assumptions ascii_bit_coders_ok_char.

Example coder_hyp_ex : Forall call_ok
  [(0, RInt 0 0); (7, RInt 7 7); (2 ^ 64 - 1, RInt 0 (2 ^ 64 - 1)); (58, RLit); (255, RLit); (1, RBit); (0, RBit); (12, RInt 3 100)].
Proof. repeat constructor; cbn; lia. Qed.
Example coder_run_ex : enc_file Ascii [(58, RLit); (120, RInt 0 200); (1, RBit)]
  = Some [58; 49; 50; 48; 58; 49; 0].
Proof. reflexivity. Qed.
