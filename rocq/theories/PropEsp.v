(** C47: the ESP compressor with the plain SLP coder (its default). *)
From Verif Require Import Base BitIO IntCodes Esp EspSpec EspBlockProofs EspAdjustProofs EspProofs.
Local Open Scope N_scope.

(** Compressing ends for every input of fewer than 2^32 bytes, and decompressing
    the result gives the input back. *)
Theorem esp_roundtrip text : bytes_ok text -> N.of_nat (length text) < 2 ^ 32 ->
  exists f, esp_compress text = Some f /\ esp_decompress f = Some text.
Proof. exact (esp_ok text). Qed.
Print Assumptions esp_roundtrip.

(** The grammar built for a non-empty text generates exactly that text, has fewer
    rules than the text has bytes, and a derivation tree of height at most
    2 log2 of the length (so the recursive expansion needs that much stack). *)
Theorem esp_grammar_generates text : bytes_ok text -> N.of_nat (length text) < 2 ^ 32 ->
  exists g, generate_grammar text = Some g /\
    (text = [] -> s_empty g = true /\ s_rules g = []) /\
    (text <> [] -> s_empty g = false /\ (length (s_rules g) < length text)%nat /\
                   generates (s_rules g) (2 * Nat.log2 (length text)) (s_root g) text).
Proof.
  intros Hb Ht. destruct (grammar_ok text Hb Ht) as (g & E & _ & _ & Hg). exists g. split; [auto|].
  destruct (s_empty g).
  - destruct Hg as (-> & Hr & _). split; [auto|congruence].
  - destruct Hg as (H1 & H2 & _). split; [|auto]. intros ->. cbn in H1. lia.
Qed.
Print Assumptions esp_grammar_generates.

(** Each round cuts its string (any string of at least two symbols below an alphabet
    size of at most 2^32) into consecutive blocks of two or three symbols. *)
Theorem esp_blocks_cover alphabet s : alphabet <= 2 ^ 32 -> Forall (fun x => x < alphabet) s -> (2 <= length s)%nat ->
  exists bs0 bs, split (length s) alphabet s = Some bs0 /\ adjust_blocks bs0 = Some bs /\
    Forall (fun b => fst b = 2 \/ fst b = 3)%nat bs /\ list_sum (map fst bs) = length s.
Proof.
  intros HA HF Hl. destruct (split_ok alphabet HA (length s) s) as (bs0 & E0 & L0 & B0 & T0); auto.
  destruct (adjust_ok bs0 B0 T0) as (bs & E1 & L1 & B1); [lia|].
  exists bs0, bs. split; [auto|]. split; [auto|]. split; [|rewrite <- L0; exact L1].
  eapply Forall_impl; [|exact B1]. cbn. intros; lia.
Qed.
Print Assumptions esp_blocks_cover.

(** "abracadabra!aaaaaaa" and a longer text with many repetitions *)
Definition esp_ex : list N := [97;98;114;97;99;97;100;97;98;114;97;33;97;97;97;97;97;97;97].
Example esp_ex_ok : bytes_ok esp_ex /\ (length esp_ex = 19)%nat.
Proof. split; [unfold esp_ex, bytes_ok, byte_ok; repeat constructor; lia|reflexivity]. Qed.
Example esp_ex_grammar : option_map (fun g => (length (s_rules g), s_root g)) (generate_grammar esp_ex) = Some (16%nat, 271).
Proof. vm_compute. reflexivity. Qed.
Example esp_ex_run : (do f <- esp_compress esp_ex; esp_decompress f) = Some esp_ex.
Proof. vm_compute. reflexivity. Qed.
Example esp_ex_long : (do f <- esp_compress (concat (repeat esp_ex 12)); esp_decompress f) = Some (concat (repeat esp_ex 12)).
Proof. vm_compute. reflexivity. Qed.
Example esp_ex_empty : (do f <- esp_compress []; esp_decompress f) = Some [].
Proof. vm_compute. reflexivity. Qed.
Example esp_ex_single : (do f <- esp_compress [7]; esp_decompress f) = Some [7].
Proof. vm_compute. reflexivity. Qed.
