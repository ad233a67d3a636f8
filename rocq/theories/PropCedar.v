(** C62: LZW with the Cedar trie is lossless on texts without the bytes 0 and 255; with
    these bytes, and for LZ78, it is not. *)
From Coq Require Import List.
From Verif Require Import Base Coders LZ Cedar CedarInit CedarLzw.
Import ListNotations.
Local Open Scope N_scope.

(** C62. LZW over the Cedar double array, with any coder: every text over the bytes 1 to 254 comes back,
    whatever blocks are opened, closed and searched and whichever nodes are moved on the way. *)
Theorem cedar_lzw_roundtrip : forall c text,
  coder_ok c -> (forall b, In b text -> 1 <= b <= 254) -> N.of_nat (length text) + 258 < 2 ^ 32 ->
  exists f, clzw_compress c text = Some f /\
    forall fuel, (length text <= fuel)%nat -> lzw_decompress c 0 fuel f = Some text.
Proof.
  intros c text Hc Hb Hl. apply clzw_pf; auto. apply Forall_forall. intros b I. apply Hb in I.
  split; [apply N.lt_le_trans with 1; [reflexivity|apply I]|apply N.le_lt_trans with 254; [apply I|reflexivity]].
Qed.
Print Assumptions cedar_lzw_roundtrip.

(** C62. On these texts it makes exactly the factors LZW makes with an ideal dictionary, hence with each of the
    tries shown to be one. *)
Theorem cedar_lzw_factors : forall text,
  (forall b, In b text -> 1 <= b <= 254) -> N.of_nat (length text) + 258 < 2 ^ 32 ->
  clzw_calls text = lzw_calls spec_trie 0 text.
Proof.
  intros text Hb Hl. apply clzw_calls_ok; auto. apply Forall_forall. intros b I. apply Hb in I.
  split; [apply N.lt_le_trans with 1; [reflexivity|apply I]|apply N.le_lt_trans with 254; [apply I|reflexivity]].
Qed.
Print Assumptions cedar_lzw_factors.

(** C62. LZ78 over Cedar is not lossless: its root is itself a node below the escape node and is moved by an
    insertion while the remembered position stays, after which the search reads outside the array. Two texts,
    one of three letters and one of sixteen printable ones. *)
Theorem cedar_lz78_refuted : forall text,
  text = [97; 1; 97] \/ text = [99; 98; 99; 98; 99; 99; 97; 98; 99; 97; 99; 98; 97; 97; 99; 97] ->
  clz78_calls text = None /\ (exists cs, lz78_calls spec_trie 0 text = Some cs) /\
  forall c, clz78_compress c text = None.
Proof.
  intros text [-> | ->].
  - assert (E : clz78_calls [97; 1; 97] = None) by (vm_compute; reflexivity).
    split; [exact E|]. split; [eexists; vm_compute; reflexivity|]. intros c. unfold clz78_compress. rewrite E. reflexivity.
  - assert (E : clz78_calls [99; 98; 99; 98; 99; 99; 97; 98; 99; 97; 99; 98; 97; 97; 99; 97] = None) by (vm_compute; reflexivity).
    split; [exact E|]. split; [eexists; vm_compute; reflexivity|]. intros c. unfold clz78_compress. rewrite E. reflexivity.
Qed.
Print Assumptions cedar_lz78_refuted.

Definition text012 : list N := [0; 0; 1; 1; 0; 1; 0; 2; 1; 2; 2; 1; 1; 1; 0; 0; 0; 0; 0; 1; 0; 2; 2; 1; 0; 1; 0; 0; 2; 1; 2; 1; 0; 1; 0; 0; 2; 0; 1; 2; 1; 0; 1; 0; 2; 0; 2; 1; 1; 
0; 1; 0; 1; 2; 1; 0; 1; 2; 0; 2; 1; 1; 0; 0; 0; 0; 2; 2; 1; 0; 1; 1; 1; 1; 2; 2; 0; 1; 1; 1; 2; 2; 2; 2; 0; 1; 1; 0; 2; 1; 2; 1; 1; 1; 2; 1; 2; 0; 0; 
1; 0; 1; 0; 2; 0; 1; 2; 0; 2; 0; 0; 2; 1; 1; 2; 0; 2; 2; 2; 1; 2; 2; 1; 0; 0; 2; 1; 2; 1; 2; 2; 2; 2; 0; 1; 1; 1; 2; 2; 2; 2; 0; 0; 2; 2; 0; 1; 0; 2; 
0; 1; 0; 1; 1; 0; 1; 2; 1; 1; 1; 2; 2; 1; 2; 2; 2; 1; 0; 2; 1; 0; 1; 1; 0; 1; 2; 2; 1; 2; 1; 0; 2; 2; 2; 0; 0; 0; 0; 0; 2; 2; 1; 1; 0; 2; 1; 2; 2; 1; 
0; 1; 2; 1; 2; 1; 2; 1; 2; 0; 1; 1; 1; 0; 1; 1; 2; 0; 1; 1; 1; 0; 1; 1; 2; 1; 2; 0; 2; 1; 2; 2; 0; 1; 0; 2; 0; 2].

(** C62. With the byte 0 (kept below the escape node) LZW goes wrong too: this text over 0, 1, 2 is compressed
    without complaint, and the file decompresses to something else. *)
Theorem cedar_lzw_zero_refuted :
  (forall b, In b text012 -> b <= 2) /\
  exists f u, clzw_compress (simple_coder BitC) text012 = Some f /\
    lzw_decompress (simple_coder BitC) 0 (length text012) f = Some u /\ u <> text012.
Proof.
  split.
  - assert (E : forallb (fun b => b <=? 2) text012 = true) by (vm_compute; reflexivity).
    rewrite forallb_forall in E. intros b I. apply N.leb_le. auto.
  - set (r := match clzw_compress (simple_coder BitC) text012 with
              | Some f => match lzw_decompress (simple_coder BitC) 0 (length text012) f with
                          | Some u => length u | None => 0%nat end
              | None => 0%nat end).
    assert (E : r = 235%nat) by (vm_compute; reflexivity). unfold r in E. clear r.
    destruct (clzw_compress (simple_coder BitC) text012) as [f|] eqn:Ef; [|discriminate].
    destruct (lzw_decompress (simple_coder BitC) 0 (length text012) f) as [u|] eqn:Eu; [|discriminate].
    exists f, u. split; [reflexivity|]. split; [exact Eu|]. intros ->. discriminate.
Qed.
Print Assumptions cedar_lzw_zero_refuted.

(** 72 letters, two of them the end points 1 and 254: the text meets the hypotheses, is compressed and comes back. *)
Definition text_ex : list N := flat_map (fun i => [1; 254; 97 + i; 97; 97 + (i * i) mod 7; 98]) (map N.of_nat (seq 0 12)).
Example cedar_lzw_ex : (forall b, In b text_ex -> 1 <= b <= 254) /\ length text_ex = 72%nat /\
  match clzw_compress (simple_coder BitC) text_ex with
  | Some f => lzw_decompress (simple_coder BitC) 0 72 f = Some text_ex
  | None => False end.
Proof.
  split; [|split; [vm_compute; reflexivity|vm_compute; reflexivity]].
  assert (E : forallb (fun b => (1 <=? b) && (b <=? 254)) text_ex = true) by (vm_compute; reflexivity).
  rewrite forallb_forall in E. intros b I. apply E in I. apply andb_prop in I as [I J]. split; apply N.leb_le; auto.
Qed.
