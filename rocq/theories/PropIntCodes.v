(** Properties C03, C04, C05, C07: integer codes.
    [flat_map write_X vs] is the sequence of bits written for the values [vs];
    [bits_file] closes the stream; [rd_seq (rd_X bis_read_bit fuel) n] performs
    [n] reads on the re-opened byte file ([None] = the C++ loop has not returned
    within [fuel] iterations, or undefined behaviour). *)
From Verif Require Import Base BitIO BitIOProofs IntCodes IntCodesProofs.
Local Open Scope N_scope.

(** C03. Any sequence of write_int(v,w) calls is read back by read_int(w) calls as
    [v mod 2^w], and whatever bits were written after them are still there. *)
Theorem write_int_read_int : forall vw : list (N * nat), Forall (fun p => (snd p <= 64)%nat) vw ->
  forall rest s', bis_read_ints (map snd vw)
     (bis_open (bits_file (flat_map (fun p => write_int (fst p) (snd p)) vw ++ rest))) = s' ->
  fst s' = map (fun p => fst p mod 2 ^ N.of_nat (snd p)) vw /\
  (forall n, fst (bis_read_bits n (snd s')) = firstn n rest ++ repeat false (n - length rest)).
Proof. exact ints_stream_pf. Qed.
Print Assumptions write_int_read_int.
Example write_int_read_int_ex : Forall (fun p : N * nat => (snd p <= 64)%nat) [(300, 8%nat); (5, 64%nat); (1, 0%nat)].
Proof. repeat constructor; cbn; lia. Qed.

(** C04. *)
Theorem unary_roundtrip : forall vs, Forall is64 vs ->
  forall fuel, Forall (fun v => (N.to_nat v < fuel)%nat) vs ->
  exists s', rd_seq (rd_unary bis_read_bit fuel) (length vs)
               (bis_open (bits_file (flat_map write_unary vs))) = Some (vs, s') /\ bis_eof s' = true.
Proof. exact unary_stream_pf. Qed.
Print Assumptions unary_roundtrip.

Theorem elias_gamma_roundtrip : forall vs, Forall is64 vs ->
  exists s', rd_seq (rd_gamma bis_read_bit 65) (length vs)
               (bis_open (bits_file (flat_map write_gamma vs))) = Some (vs, s') /\ bis_eof s' = true.
Proof. exact gamma_stream_pf. Qed.
Print Assumptions elias_gamma_roundtrip.

Theorem elias_delta_roundtrip : forall vs, Forall is64 vs ->
  exists s', rd_seq (rd_delta bis_read_bit 65) (length vs)
               (bis_open (bits_file (flat_map write_delta vs))) = Some (vs, s') /\ bis_eof s' = true.
Proof. exact delta_stream_pf. Qed.
Print Assumptions elias_delta_roundtrip.

Theorem ternary_roundtrip : forall vs, Forall is64 vs ->
  Forall (fun v => write_ternary v <> None) vs /\
  exists s', rd_seq (rd_ternary bis_read_bit 200) (length vs)
               (bis_open (bits_file (flat_map (fun v => ostr (write_ternary v)) vs))) = Some (vs, s')
             /\ bis_eof s' = true.
Proof. exact ternary_stream_pf. Qed.
Print Assumptions ternary_roundtrip.

Theorem compressed_int_roundtrip : forall b, (0 < b < 64)%nat -> forall vs, Forall is64 vs ->
  Forall (fun v => write_cint v b <> None) vs /\
  exists s', rd_seq (rd_cint bis_read_bit (S b * 65) b) (length vs)
               (bis_open (bits_file (flat_map (fun v => ostr (write_cint v b)) vs))) = Some (vs, s')
             /\ bis_eof s' = true.
Proof. exact cint_stream_pf. Qed.
Print Assumptions compressed_int_roundtrip.

Example codes_hyp_ex : Forall is64 [0; 1; 2; 3; 127; 128; 2 ^ 32; 2 ^ 63; 2 ^ 64 - 1].
Proof. repeat constructor; reflexivity. Qed.

(** C04, the negative side: read_unary (hence gamma and delta) never returns on
    a stream that has no 1-bit left — a truncated file hangs the decoder. *)
Theorem unary_hangs_on_truncated_input : forall f n,
  (forall b, In b (skipn n (file_bits f)) -> b = false) ->
  forall fuel, rd_unary bis_read_bit fuel (bis_after f n) = None.
Proof. exact unary_hangs_pf. Qed.
Print Assumptions unary_hangs_on_truncated_input.
Example unary_hangs_ex : forall b, In b (skipn 2 (file_bits [64; 0])) -> b = false.
Proof. vm_compute. intuition. Qed.

(** C05. *)
Theorem vbyte_roundtrip : forall vs, Forall is64 vs -> forall tail,
  Forall (fun v => write_vbyte v <> None) vs /\
  rd_seq read_vbyte (length vs)
    (flat_map (fun v => match write_vbyte v with Some l => l | None => [] end) vs ++ tail)
  = Some (vs, tail).
Proof. exact vbyte_seq_pf. Qed.
Print Assumptions vbyte_roundtrip.

(** C07. bits_for(n) is the least width w >= 1 with n < 2^w. *)
Theorem bits_for_sufficient : forall n, n < 2 ^ bits_for n /\ 1 <= bits_for n.
Proof. exact (fun n => conj (bits_for_bound n) (bits_for_pos n)). Qed.
Print Assumptions bits_for_sufficient.
Theorem bits_for_least : forall n w, 1 <= w -> n < 2 ^ w -> bits_for n <= w.
Proof. exact bits_for_min. Qed.
Print Assumptions bits_for_least.
Example bits_for_ex : map bits_for [0; 1; 2; 3; 4; 255; 256] = [1; 1; 2; 2; 3; 8; 9].
Proof. reflexivity. Qed.
