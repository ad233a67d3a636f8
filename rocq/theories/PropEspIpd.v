(** C61: the ESP compressor with every registered IPD map. *)
From Coq Require Import Permutation.
From Verif Require Import Base BitIO IntCodes Esp EspSpec EspProofs SlpSort DCodings Succinct WtCoding SubOptimal PropEspSorted
  RigHash RigHashSpec RigHashProofs EspIpd EspIpdProofs.
Local Open Scope N_scope.

(** etc/registry_config.py:169-179: std_unordered_map with any order of iteration, hash_map with any hash function,
    dynamic_size over either of them, with an order or a hash function for each number of bits *)
Inductive registered : forall St : Type, ipd St -> Prop :=
| reg_std ord : (forall l, Permutation (ord l) l) -> registered _ (std_ipd ord)
| reg_hash hash : registered _ (hash_ipd hash)
| reg_dyn_std ord : (forall B l, Permutation (ord B l) l) -> registered _ (dyn_ipd (fun B => std_ipd (ord B)))
| reg_dyn_hash hash : registered _ (dyn_ipd (fun B => hash_ipd (hash B))).

Lemma registered_ok St (I : ipd St) : registered St I -> exists R, gr_ok I R.
Proof.
  intros [ord Ho | hash | ord Ho | hash].
  - eexists. apply map_gr_ok. apply std_ok. exact Ho.
  - eexists. apply map_gr_ok. apply hash_ok.
  - eexists. apply (dyn_ok _ (fun _ => std_R)). intros B _. apply std_ok. apply Ho.
  - eexists. apply (dyn_ok _ (fun B => hash_R (hash B) (ones B))). intros B _. apply hash_ok.
Qed.

(** The grammar, and with it the compressed file, does not depend on the map. *)
Theorem esp_ipd_same_grammar St (I : ipd St) text : registered St I -> bytes_ok text -> N.of_nat (length text) < 2 ^ 32 ->
  generate_grammar_ipd I text = generate_grammar text /\ esp_compress_ipd I text = esp_compress text.
Proof.
  intros HI Hb Ht. destruct (registered_ok St I HI) as [R HR]. pose proof (generate_ipd_ok I R HR text Hb Ht) as E.
  split; [exact E | ]. unfold esp_compress_ipd, esp_compress. rewrite E. reflexivity.
Qed.
Print Assumptions esp_ipd_same_grammar.

Theorem esp_ipd_roundtrip St (I : ipd St) text : registered St I -> bytes_ok text -> N.of_nat (length text) < 2 ^ 32 ->
  exists f, esp_compress_ipd I text = Some f /\ esp_decompress f = Some text.
Proof.
  intros HI Hb Ht. destruct (esp_ipd_same_grammar St I text HI Hb Ht) as [_ ->]. exact (esp_ok text Hb Ht).
Qed.
Print Assumptions esp_ipd_roundtrip.

(** the sorted coder with its default coding of the right-hand sides *)
Definition esp_sorted_compress_ipd {St} (I : ipd St) (dc : dcoding) (text : list N) : option (list N) :=
  do g <- generate_grammar_ipd I text; do b <- sorted_slp_bits dc g; Some (bits_file b).
Theorem esp_ipd_sorted_roundtrip St (I : ipd St) text : registered St I -> bytes_ok text -> N.of_nat (length text) <= 2 ^ 30 ->
  exists f, esp_sorted_compress_ipd I (d_succinct sub_optimal d_wavelet) text = Some f /\
            esp_sorted_decompress (d_succinct sub_optimal d_wavelet) f = Some text.
Proof.
  intros HI Hb Ht. unfold esp_sorted_compress_ipd. destruct (esp_ipd_same_grammar St I text HI Hb) as [-> _]; [lia | ].
  exact (esp_sorted_succinct_default_roundtrip text Hb Ht).
Qed.
Print Assumptions esp_ipd_sorted_roundtrip.

(** DynamicSizeIPD as a map: every history of accesses after which the value is larger than both parts of its key
    (and below 2^56) is answered as by a finite map, through all changes of the number of bits. *)
Fixpoint ipd_run {St} (I : ipd St) (st : St) (os : list (key * (N -> N))) : option (St * list N) :=
  match os with
  | [] => Some (st, [])
  | (k, g) :: os =>
      do (_, v, st) <- i_access I (fun (s : unit) v => (s, g v)) tt k st;
      do (st, vs) <- ipd_run I st os; Some (st, v :: vs)
  end.
Fixpoint map_run (l : list (key * N)) (os : list (key * (N -> N))) : list (key * N) * list N :=
  match os with
  | [] => (l, [])
  | (k, g) :: os =>
      let w := g (match m_get key_eqb l k with Some v => v | None => 0 end) in
      let (l, vs) := map_run ((k, w) :: m_del key_eqb l k) os in (l, w :: vs)
  end.
Theorem ipd_is_a_map St (I : ipd St) os l vs : registered St I -> map_run [] os = (l, vs) ->
  Forall2 (fun o v => fst (fst o) < v /\ snd (fst o) < v /\ v < 2 ^ 56) os vs ->
  exists st, ipd_run I (i_new I 0 (2 ^ 64 - 1, 2 ^ 64 - 1)) os = Some (st, vs) /\ Permutation (i_all I st) l.
Proof.
  intros HI. destruct (registered_ok St I HI) as [R HR].
  assert (A : forall os l0 st, R st l0 -> map_run l0 os = (l, vs) -> Forall2 (fun o v => fst (fst o) < v /\ snd (fst o) < v /\ v < 2 ^ 56) os vs ->
     exists st', ipd_run I st os = Some (st', vs) /\ R st' l).
  { clear os. intros os. revert l vs. induction os as [ | [k g] os IH]; intros l vs l0 st H0 E HF; cbn [map_run ipd_run] in *.
    - injection E as <- <-. exists st. auto.
    - fold (getv l0 k) in E. destruct (map_run _ os) as [l1 vs1] eqn:E1. injection E as <- <-.
      inversion HF as [ | x y xs ys [H1 [H2 H3]] HF2]; subst. cbn [fst snd] in *.
      destruct (go_acc _ _ HR unit (fun s v => (s, g v)) tt k st l0 H0) as (st1 & r & E2 & -> & R1); cbn [fst snd] in *.
      + unfold key_max. lia.
      + exact H3.
      + rewrite E2. cbn [obind]. destruct (IH _ _ _ st1 R1 E1 HF2) as (st2 & E3 & R2). rewrite E3. cbn [obind].
        exists st2. split; [reflexivity | exact R2]. }
  intros E HF. destruct (A os [] _ (go_new _ _ HR) E HF) as (st & E2 & R2). exists st. split; [exact E2 | apply (go_all _ _ HR); exact R2].
Qed.
Print Assumptions ipd_is_a_map.

(** a hash function for computations *)
Definition mini_hash (k : key) : nat := N.to_nat ((fst k * 31 + snd k) mod 64).
(** Outside of that: dynamic_size over hash_map forgets the value 1 of the key (65535, 65535), whose parts are what an
    empty slot of the 16 bit table holds. *)
Theorem dynamic_size_refuted_small_values :
  exists st, ipd_run (dyn_ipd (fun _ => hash_ipd mini_hash)) (i_new (dyn_ipd (fun _ => hash_ipd mini_hash)) 0 (2 ^ 64 - 1, 2 ^ 64 - 1))
      [((65535, 65535), fun v => v + 1); ((65535, 65535), fun v => v + 1)] = Some (st, [1; 1]) /\
    snd (map_run [] [((65535, 65535), fun v => v + 1); ((65535, 65535), fun v => v + 1)]) = [1; 2].
Proof. eexists. split; vm_compute; reflexivity. Qed.
Print Assumptions dynamic_size_refuted_small_values.

Lemma mini_registered : registered _ (dyn_ipd (fun _ => hash_ipd mini_hash)) /\ registered _ (hash_ipd mini_hash) /\
  registered _ (std_ipd (@rev _)) /\ registered _ (dyn_ipd (fun _ => std_ipd (@rev _))).
Proof.
  split; [exact (reg_dyn_hash (fun _ => mini_hash)) | ]. split; [apply reg_hash | ]. split.
  - apply reg_std. intros l. symmetry. apply Permutation_rev.
  - apply (reg_dyn_std (fun _ => @rev _)). intros _ l. symmetry. apply Permutation_rev.
Qed.
Definition ipd_ex : list N := concat (repeat [97;98;114;97;99;97;100;97;98;114;97;33;97;97;97;97;97;97;97] 4).
Example ipd_ex_bytes : bytes_ok ipd_ex.
Proof. unfold bytes_ok. apply Forall_forall. intros x Hx. assert (forallb (fun x => x <? 256) ipd_ex = true) as F by (vm_compute; reflexivity).
  rewrite forallb_forall in F. apply N.ltb_lt. exact (F x Hx). Qed.
Example ipd_ex_run :
  option_map (@length N) (esp_compress ipd_ex) = Some 79%nat /\
  esp_compress_ipd (dyn_ipd (fun _ => hash_ipd mini_hash)) ipd_ex = esp_compress ipd_ex /\
  esp_compress_ipd (hash_ipd mini_hash) ipd_ex = esp_compress ipd_ex /\
  esp_compress_ipd (dyn_ipd (fun _ => std_ipd (@rev _))) ipd_ex = esp_compress ipd_ex.
Proof. vm_compute. repeat split; reflexivity. Qed.
(** the widths 8, 16 and 24 bits, the second because of a value, and a key made of the parts of an empty slot *)
Example dyn_ex :
  let os := [((1, 2), fun _ => 200); ((255, 255), fun _ => 300); ((1, 2), fun v => v + 100); ((65535, 65535), fun _ => 65600); ((65535, 65535), fun v => v + 1); ((255, 255), fun v => v)] in
  snd (map_run [] os) = [200; 300; 300; 65600; 65601; 300] /\
  option_map (fun r => (d_bits (fst r), snd r)) (ipd_run (dyn_ipd (fun _ => hash_ipd mini_hash)) (i_new (dyn_ipd (fun _ => hash_ipd mini_hash)) 0 (2 ^ 64 - 1, 2 ^ 64 - 1)) os) =
    Some (24, [200; 300; 300; 65600; 65601; 300]) /\
  Forall2 (fun o v => fst (fst o) < v /\ snd (fst o) < v /\ v < 2 ^ 56) os (snd (map_run [] os)).
Proof. cbn zeta. split; [vm_compute; reflexivity | ]. split; [vm_compute; reflexivity | ]. cbn [map_run snd]. repeat constructor; vm_compute; reflexivity. Qed.
