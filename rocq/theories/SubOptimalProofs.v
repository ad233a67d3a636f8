(** The optimal strategy gives a partition into monotone subsequences, each of them
    as long as any monotone subsequence of what is left. *)
From Coq Require Import Sorted Permutation.
From Verif Require Import Base Succinct SubseqSpec SuccinctProofs SubseqRoundProofs SubseqGreedyProofs SubOptimal.

Lemma a_search_loop_ok A y : forall fuel start stop, start < stop <= length A -> stop - start <= fuel ->
  (y < nth start A 0)%N -> (stop = length A \/ (nth stop A 0 <= y)%N) ->
  exists j, a_search_loop fuel A y start stop = Some j /\ j < length A /\ (y < nth j A 0)%N /\ (S j = length A \/ (nth (S j) A 0 <= y)%N).
Proof.
  induction fuel as [|fuel IH]; intros start stop Hs Hf H1 H2; [lia|]. cbn [a_search_loop].
  assert (Hh : (stop - start) / 2 < stop - start) by (apply Nat.div_lt; lia).
  assert (Hh' : 1 < stop - start -> 1 <= (stop - start) / 2) by (intros H; apply (Nat.div_le_mono 2 (stop - start) 2); lia).
  set (h := (stop - start) / 2) in *. clearbody h.
  rewrite (nth_error_nth' A 0%N) by lia. cbn [obind].
  destruct (N.ltb_spec y (nth (h + start) A 0%N)) as [Hm|Hm].
  - destruct (Nat.ltb_spec 1 (stop - (h + start))) as [Hc|Hc].
    + apply IH; auto; lia.
    + exists (h + start). split; [auto|]. split; [lia|]. split; [auto|]. replace (S (h + start)) with stop by lia. auto.
  - assert (h <> 0) by (intros ->; cbn [plus] in Hm; lia). destruct (Nat.ltb_spec 1 (h + start - start)) as [Hc|Hc].
    + apply IH; auto; lia.
    + exists start. split; [auto|]. split; [lia|]. split; [auto|]. replace (S start) with (h + start) by lia. auto.
Qed.
Lemma a_search_ok A y : A <> [] -> (y < nth 0 A 0)%N ->
  exists j, a_search A y = Some j /\ j < length A /\ (y < nth j A 0)%N /\ (S j = length A \/ (nth (S j) A 0 <= y)%N).
Proof. intros Hn H. unfold a_search. assert (0 < length A) by (destruct A; [congruence|cbn; lia]). apply a_search_loop_ok; auto; lia. Qed.

Section Rebuild.
Context (reverse : bool) (sis : list nat) (Hperm : is_perm sis) (Hlen : (N.of_nat (length sis) < 2 ^ 64 - 1)%N).
Notation X := (pt_x reverse sis).
Notation Y := (fun i => nth i sis 0).
Definition dom (a c : nat) : Prop := X c < X a /\ nth c sis 0 < nth a sis 0.

(** the state after the links in [done], latest last *)
Definition rb_inv (done : list nat) (ll layers : list nat) (A : list N) (Cs : list (list nat)) : Prop :=
  length layers = length Cs /\ length A = S (length Cs) /\ nth 0 A 0%N = (2 ^ 64 - 1)%N /\
  (forall j, j < length Cs -> let C := nth j Cs [] in
     C <> [] /\ nth j layers 0 = hd 0 C /\ nth (S j) A 0%N = N.of_nat (nth (hd 0 C) sis 0) /\ path ll C (last C 0) /\
     StronglySorted (fun a b => X a < X b /\ nth b sis 0 < nth a sis 0) C) /\
  (forall j, S j < length Cs -> forall e, In e (nth (S j) Cs []) -> exists d, In d (nth j Cs []) /\ dom d e) /\
  (forall e, In e done <-> exists j, j < length Cs /\ In e (nth j Cs [])).

Lemma last_cons2 {A} (x : A) C d : C <> [] -> last (x :: C) d = last C d.
Proof. destruct C; [congruence|reflexivity]. Qed.
Lemma sis_inj i j : i < length sis -> j < length sis -> nth i sis 0 = nth j sis 0 -> i = j.
Proof. destruct Hperm as [Hn _]. intros. eapply (NoDup_nth sis 0); eauto. Qed.
Lemma sis_lt i : i < length sis -> nth i sis 0 < length sis.
Proof. intros H. apply Hperm, nth_In, H. Qed.

Lemma rb_step done ll layers A Cs link : rb_inv done ll layers A Cs -> link < length sis -> length ll = length sis ->
  (forall e, In e done -> e < length sis /\ X link < X e) ->
  exists j ll' layers' Cs', a_search (firstn (length layers + 1) A) (N.of_nat (nth link sis 0)) = Some j /\
    (if j =? length layers then Some (upd ll link link, layers ++ [link])
     else do old_head <- nth_error layers j; Some (upd ll link old_head, upd layers j link)) = Some (ll', layers') /\
    rb_inv (done ++ [link]) ll' layers' (if length A =? j + 1 then A ++ [N.of_nat (nth link sis 0)] else upd A (j + 1) (N.of_nat (nth link sis 0))) Cs' /\
    length ll' = length ll /\ (forall i, i <> link -> nth_error ll' i = nth_error ll i).
Proof.
  intros (L1 & L2 & A0 & IC & ID & IE) Hlink Hll Hdone.
  assert (Hln : ~ In link done) by (intros H; apply Hdone in H; lia).
  assert (HC : forall j e, j < length Cs -> In e (nth j Cs []) -> e < length sis /\ X link < X e /\ e <> link).
  { intros j e Hj He. assert (In e done) by (apply IE; eauto). destruct (Hdone e H). split; [auto|]. split; [auto|]. intros ->. auto. }
  rewrite firstn_all2 by lia. set (y := N.of_nat (nth link sis 0)).
  assert (Hy : (y < 2 ^ 64 - 1)%N) by (pose proof (sis_lt link Hlink); unfold y; lia).
  destruct (a_search_ok A y) as (j & Ej & Hj & Hj1 & Hj2); [destruct A; discriminate|rewrite A0; auto|].
  exists j. rewrite L1. rewrite Ej.
  assert (Hpre : forall i, S i = j -> exists d, In d (nth i Cs []) /\ dom d link).
  { intros i <-. destruct (IC i) as (C1 & C2 & C3 & _); [lia|]. exists (hd 0 (nth i Cs [])).
    assert (Hin : In (hd 0 (nth i Cs [])) (nth i Cs [])) by (destruct (nth i Cs []); [congruence|left; auto]).
    split; [auto|]. destruct (HC i _ ltac:(lia) Hin) as (H1 & H2 & _). split; [auto|]. rewrite C3 in Hj1. unfold y in Hj1. lia. }
  destruct (Nat.eqb_spec j (length Cs)) as [->|Hne].
  - exists (upd ll link link), (layers ++ [link]), (Cs ++ [[link]]). split; [auto|]. split; [auto|]. split; [|split; [apply upd_length|intros i Hi; apply nth_error_upd_ne; auto]].
    replace (length A =? length Cs + 1) with true by (symmetry; apply Nat.eqb_eq; lia).
    unfold rb_inv. rewrite !app_length. cbn [length]. split; [lia|]. split; [lia|].
    split; [rewrite app_nth1 by lia; auto|]. split; [|split].
    + intros k Hk. destruct (Nat.eq_dec k (length Cs)) as [->|Hk'].
      * rewrite (app_nth2 Cs), Nat.sub_diag by lia. cbn [nth hd last path]. split; [discriminate|].
        rewrite app_nth2 by lia. rewrite L1, Nat.sub_diag. rewrite app_nth2 by lia. rewrite L2, Nat.sub_diag. cbn [nth]. split; [auto|]. split; [auto|].
        split; [split; [apply nth_error_upd_eq; lia|auto]|repeat constructor].
      * rewrite (app_nth1 Cs) by lia. destruct (IC k ltac:(lia)) as (C1 & C2 & C3 & C4 & C5). split; [auto|]. rewrite !app_nth1 by lia. split; [auto|]. split; [auto|]. split; [|auto].
        apply path_upd; [|auto]. intros H. destruct (HC k link ltac:(lia) H) as (_ & _ & H'). congruence.
    + intros k Hk e He. destruct (Nat.eq_dec (S k) (length Cs)) as [Ek|Hk'].
      * rewrite Ek, (app_nth2 Cs), Nat.sub_diag in He by lia. cbn [nth] in He. destruct He as [<-|[]]. rewrite app_nth1 by lia. apply Hpre. auto.
      * rewrite app_nth1 in He by lia. rewrite app_nth1 by lia. apply ID; auto. lia.
    + intros e. rewrite in_app_iff, IE. split.
      * intros [(k & Hk & He)|[<-|[]]]; [exists k; rewrite app_nth1 by lia; split; [lia|auto]|]. exists (length Cs). rewrite app_nth2, Nat.sub_diag by lia. split; [lia|left; auto].
      * intros (k & Hk & He). destruct (Nat.eq_dec k (length Cs)) as [->|Hk']; [|left; exists k; rewrite app_nth1 in He by lia; split; [lia|auto]].
        rewrite app_nth2, Nat.sub_diag in He by lia. right. exact He.
  - rewrite L2 in Hj, Hj2. destruct (IC j ltac:(lia)) as (C1 & C2 & C3 & C4 & C5). rewrite (nth_error_nth' layers 0) by lia. cbn [obind]. rewrite C2.
    set (C := nth j Cs []) in *. exists (upd ll link (hd 0 C)), (upd layers j link), (upd Cs j (link :: C)).
    split; [auto|]. split; [auto|]. split; [|split; [apply upd_length|intros i Hi; apply nth_error_upd_ne; auto]].
    replace (length A =? j + 1) with false by (symmetry; apply Nat.eqb_neq; lia). replace (j + 1) with (S j) by lia.
    unfold rb_inv. rewrite !upd_length. split; [auto|]. split; [auto|]. split; [rewrite nth_upd_ne by lia; auto|].
    assert (Hin : forall e, In e C -> e < length sis /\ X link < X e /\ e <> link) by (intros e; apply HC; lia).
    split; [|split].
    + intros k Hk. destruct (Nat.eq_dec k j) as [->|Hk'].
      * rewrite !nth_upd_eq by lia. split; [discriminate|]. split; [auto|]. split; [auto|]. rewrite last_cons2 by auto. split.
        { cbn [path]. split; [|apply path_upd; [intros H; apply Hin in H; tauto|auto]]. rewrite nth_error_upd_eq by lia. f_equal.
          destruct C; [congruence|reflexivity]. }
        constructor; [auto|]. apply Forall_forall. intros e He. destruct (Hin e He) as (H1 & H2 & H3). split; [auto|].
        assert (Hle : (nth (hd 0 C) sis 0 <= nth link sis 0)) by (destruct Hj2 as [Hj2|Hj2]; [lia|]; rewrite C3 in Hj2; unfold y in Hj2; lia).
        assert (nth e sis 0 <= nth (hd 0 C) sis 0).
        { destruct C as [|c C]; [contradiction|]. cbn [hd]. inversion C5 as [|? ? _ HF]; subst. rewrite Forall_forall in HF. destruct He as [<-|He]; [lia|]. apply HF in He. lia. }
        assert (nth e sis 0 <> nth link sis 0) by (intros E; apply sis_inj in E; auto). lia.
      * rewrite !nth_upd_ne by lia. destruct (IC k ltac:(lia)) as (D1 & D2 & D3 & D4 & D5). split; [auto|]. split; [auto|]. split; [auto|]. split; [|auto].
        apply path_upd; [|auto]. intros H. destruct (HC k link ltac:(lia) H) as (_ & _ & H'). congruence.
    + intros k Hk e He.
      assert (Hup : forall d, In d (nth k Cs []) -> In d (nth k (upd Cs j (link :: C)) [])).
      { intros d Hd. destruct (Nat.eq_dec k j) as [->|Hkj]; [rewrite nth_upd_eq by lia; right; auto|rewrite nth_upd_ne by lia; auto]. }
      destruct (Nat.eq_dec (S k) j) as [Ek|Hk'].
      * rewrite Ek, nth_upd_eq in He by lia. destruct He as [<-|He].
        { destruct (Hpre k Ek) as (d & Hd & Hdd). exists d. split; auto. }
        destruct (ID k ltac:(lia) e) as (d & Hd & Hdd); [rewrite Ek; auto|]. exists d. auto.
      * rewrite nth_upd_ne in He by lia. destruct (ID k ltac:(lia) e He) as (d & Hd & Hdd). exists d. auto.
    + intros e. rewrite in_app_iff, IE. split.
      * intros [(k & Hk & He)|[<-|[]]]; [|exists j; rewrite nth_upd_eq by lia; split; [lia|left; auto]].
        exists k. split; [auto|]. destruct (Nat.eq_dec k j) as [->|Hkj]; [rewrite nth_upd_eq by lia; right; auto|rewrite nth_upd_ne by lia; auto].
      * intros (k & Hk & He). destruct (Nat.eq_dec k j) as [->|Hkj]; [rewrite nth_upd_eq in He by lia|rewrite nth_upd_ne in He by lia; left; eauto].
        destruct He as [<-|He]; [right; left; auto|]. left. exists j. split; [lia|auto].
Qed.

Lemma rebuild_loop_ok fl : forall todo fuel done ll layers A Cs, todo <> [] -> (forall x, In x todo -> x < length sis) -> length ll = length sis ->
  StronglySorted (fun a b => X b < X a) (done ++ todo) -> (forall e, In e done -> e < length sis) ->
  path (if reverse then fl else ll) todo (last todo 0) -> rb_inv done ll layers A Cs -> length todo <= fuel ->
  let cur := hd 0 todo in let stop := last todo 0 in
  exists ll' layers' A' Cs', rebuild_loop fuel reverse sis fl (if reverse then cur else stop) (if reverse then stop else cur) ll layers A = Some (ll', layers') /\
    rb_inv (done ++ todo) ll' layers' A' Cs' /\ length ll' = length sis /\ (forall i, ~ In i todo -> nth_error ll' i = nth_error ll i).
Proof.
  induction todo as [|link rest IH]; intros fuel done ll layers A Cs Hne Hlt Hll Hs Hdl Hp Hinv Hf; [congruence|].
  destruct fuel as [|fuel]; [cbn in Hf; lia|]. cbn [length] in Hf. cbn zeta. cbn [hd]. cbn [path] in Hp. destruct Hp as [Hp1 Hp2].
  assert (Hsrt : forall e, In e done -> e < length sis /\ X link < X e).
  { intros e He. split; [auto|]. clear - Hs He. induction done as [|d done IHd]; [contradiction|]. cbn [app] in Hs. inversion Hs as [|? ? H1 H2]; subst.
    destruct He as [->|He]; [|auto]. rewrite Forall_forall in H2. apply H2. apply in_or_app. right. left. auto. }
  destruct (rb_step done ll layers A Cs link Hinv) as (j & ll' & layers' & Cs' & E1 & E2 & E3 & E4 & E5); auto. { apply Hlt. left. auto. }
  assert (Hnd : NoDup (link :: rest)).
  { assert (Hs' : StronglySorted (fun a b => X b < X a) (link :: rest)).
    { clear - Hs. induction done as [|d done IHd]; [exact Hs|]. cbn [app] in Hs. inversion Hs; auto. }
    eapply sorted_nodup_gen; [|exact Hs']. cbn. intros; lia. }
  inversion Hnd as [|? ? Hn1 Hn2]; subst.
  cbn [rebuild_loop].
  set (stop := last (link :: rest) 0) in *.
  assert (El : forall (q : bool), (if q then (if q then link else stop) else (if q then stop else link)) = link) by (intros []; reflexivity).
  rewrite El.
  assert (Ef : ((if reverse then link else stop) =? (if reverse then stop else link)) = (match rest with [] => true | _ => false end)).
  { destruct rest as [|r rest].
    - unfold stop. cbn [last]. destruct reverse; apply Nat.eqb_refl.
    - assert (link <> stop). { unfold stop. rewrite last_cons2 by discriminate. intros E. apply Hn1. rewrite E. destruct (exists_last (l := r :: rest)) as (a & z & Ez); [discriminate|].
        rewrite Ez. rewrite last_last. apply in_or_app. right. left. auto. }
      destruct reverse; apply Nat.eqb_neq; congruence. }
  rewrite Hp1. cbn [obind]. rewrite Ef.
  rewrite (nth_error_nth' sis 0) by (apply Hlt; left; auto).
  assert (Efb : forall (q : bool) (nx : nat), (if q then (nx, (if q then stop else link)) else ((if q then link else stop), nx)) = ((if q then nx else stop), (if q then stop else nx))) by (intros []; reflexivity).
  rewrite Efb. cbn [obind]. rewrite E1. cbn [obind]. rewrite E2. cbn [obind].
  destruct rest as [|r rest].
  - eexists _, _, _, _. split; [reflexivity|]. split; [exact E3|]. split; [lia|]. intros i Hi. apply E5. intros ->. apply Hi. left. auto.
  - assert (Es : stop = last (r :: rest) 0) by (apply last_cons2; discriminate).
    destruct (IH fuel (done ++ [link]) ll' layers' (if length A =? j + 1 then A ++ [N.of_nat (nth link sis 0)] else upd A (j + 1) (N.of_nat (nth link sis 0))) Cs') as (ll2 & layers2 & A2 & Cs2 & F1 & F2 & F3 & F4); auto.
    + discriminate.
    + intros x Hx. apply Hlt. right. auto.
    + lia.
    + rewrite <- app_assoc. exact Hs.
    + intros e He. apply in_app_or in He. destruct He as [He|[<-|[]]]; [auto|]. apply Hlt. left. auto.
    + rewrite <- Es. destruct reverse; [exact Hp2|]. clear - Hp2 E5 Hn1. revert Hp2 Hn1. generalize (r :: rest) as q. induction q as [|x q IHq]; intros Hp2 Hn1; [exact I|].
      cbn [path] in *. destruct Hp2 as [Ha Hb]. split; [rewrite E5; [auto|intros ->; apply Hn1; left; auto]|]. apply IHq; [auto|intros H; apply Hn1; right; auto].
    + lia.
    + cbn zeta in F1. cbn [hd] in *. rewrite Es. eexists _, _, _, _. split; [exact F1|]. split; [rewrite <- app_assoc in F2; exact F2|]. split; [auto|].
      intros i Hi. rewrite F4 by (intros H; apply Hi; right; auto). apply E5. intros ->. apply Hi. left. auto.
Qed.

(** ** reading off a longest chain *)
Lemma dominates_ok a c : a < length sis -> c < length sis -> exists d, dominates reverse sis a c = Some d /\ (d = true <-> dom a c).
Proof.
  intros Ha Hc. unfold dominates. rewrite (nth_error_nth' sis 0 Ha), (nth_error_nth' sis 0 Hc). cbn [obind]. eexists. split; [reflexivity|].
  rewrite Bool.andb_true_iff, !Nat.ltb_lt. reflexivity.
Qed.
Lemma lis_search_ok ll q d : q < length sis -> forall C fuel z, path ll C z -> (forall x, In x C -> x < length sis) -> In d C -> dom d q -> length C <= fuel ->
  exists s, lis_search fuel reverse sis ll (hd 0 C) q = Some s /\ In s C /\ dom s q.
Proof.
  intros Hq. induction C as [|c C IH]; intros fuel z Hp Hlt Hd Hdq Hf; [contradiction|]. destruct fuel as [|fuel]; [cbn in Hf; lia|]. cbn [length] in Hf.
  cbn [hd lis_search]. destruct (dominates_ok c q) as (b & Eb & Hb); [apply Hlt; left; auto|auto|]. rewrite Eb. cbn [obind]. destruct b.
  - exists c. split; [auto|]. split; [left; auto|]. apply Hb. auto.
  - cbn [path] in Hp. destruct Hp as [Hp1 Hp2]. rewrite Hp1. cbn [obind]. destruct Hd as [->|Hd]; [exfalso; apply Hb in Hdq; discriminate|].
    destruct C as [|c' C]; [contradiction|]. cbn [hd]. destruct (IH fuel z) as (s & E & H1 & H2); auto; [intros x Hx; apply Hlt; right; auto|lia|].
    exists s. cbn [hd] in E. split; [auto|]. split; [right; auto|auto].
Qed.
Lemma chain_len done ll layers A Cs j : rb_inv done ll layers A Cs -> j < length Cs -> (forall e, In e done -> e < length sis) -> length (nth j Cs []) <= length sis.
Proof.
  intros (L1 & L2 & A0 & IC & ID & IE) Hj Hd. destruct (IC j Hj) as (_ & _ & _ & _ & H5).
  assert (Hn : NoDup (nth j Cs [])). { eapply sorted_nodup_gen; [|exact H5]. cbn. intros; lia. }
  assert (Hi : incl (nth j Cs []) (seq 0 (length sis))). { intros e He. apply in_seq. split; [lia|]. apply Hd, IE. eauto. }
  apply NoDup_incl_length in Hi; auto. rewrite seq_length in Hi. auto.
Qed.
Lemma lis_loop_ok done ll layers A Cs : rb_inv done ll layers A Cs -> (forall e, In e done -> e < length sis) ->
  forall j q, j < length Cs -> In q (nth j Cs []) ->
  exists r, lis_loop reverse sis ll (rev (firstn j layers)) q = Some r /\ length r = j /\ incl r done /\ StronglySorted (fun a b => dom b a) (q :: r).
Proof.
  intros Hinv Hd. pose proof Hinv as (L1 & L2 & A0 & IC & ID & IE). induction j as [|j IH]; intros q Hj Hq.
  - exists []. cbn. repeat split; [intros x []|repeat constructor].
  - rewrite (firstn_S_nth layers j 0) by lia. rewrite rev_app_distr. cbn [rev app lis_loop].
    destruct (ID j Hj q Hq) as (d & Hdj & Hdq). destruct (IC j ltac:(lia)) as (C1 & C2 & C3 & C4 & C5). rewrite C2.
    assert (Hin : forall x, In x (nth j Cs []) -> x < length sis) by (intros x Hx; apply Hd, IE; exists j; split; [lia|auto]).
    assert (Hqd : In q done) by (apply IE; eauto).
    destruct (lis_search_ok ll q d (Hd q Hqd) (nth j Cs []) (S (length sis)) _ C4 Hin Hdj Hdq) as (s & Es & Hs1 & Hs2).
    { pose proof (chain_len done ll layers A Cs j Hinv ltac:(lia) Hd). lia. }
    rewrite Es. cbn [obind]. destruct (IH s ltac:(lia) Hs1) as (r & Er & Lr & Ir & Sr). rewrite Er. cbn [obind]. exists (s :: r). split; [auto|]. cbn [length]. split; [lia|].
    split; [intros x [<-|Hx]; [apply IE; exists j; split; [lia|auto]|auto]|]. constructor; [auto|]. constructor; [auto|].
    inversion Sr as [|? ? _ HF]; subst. eapply Forall_impl; [|exact HF]. cbn. unfold dom in *. intros; lia.
Qed.
Lemma lis_ok done ll layers A Cs : rb_inv done ll layers A Cs -> (forall e, In e done -> e < length sis) -> done <> [] ->
  exists r, lis reverse sis ll layers = Some r /\ length r = length layers /\ incl r done /\ r <> [] /\ StronglySorted (fun a b => dom b a) r.
Proof.
  intros Hinv Hd Hne. pose proof Hinv as (L1 & L2 & A0 & IC & ID & IE).
  destruct done as [|e done]; [congruence|]. destruct (proj1 (IE e)) as (k & Hk & _); [left; auto|].
  destruct (length layers) as [|m] eqn:El; [lia|]. unfold lis.
  assert (Er : rev layers = nth m layers 0 :: rev (firstn m layers)).
  { rewrite <- (firstn_all layers) at 1. rewrite El. rewrite (firstn_S_nth layers m 0) by lia. rewrite rev_app_distr. reflexivity. }
  rewrite Er. destruct (IC m ltac:(lia)) as (C1 & C2 & _). set (q := nth m layers 0) in *.
  assert (Hq : In q (nth m Cs [])) by (rewrite C2; destruct (nth m Cs []); [congruence|left; auto]).
  destruct (lis_loop_ok _ ll layers A Cs Hinv Hd m q ltac:(lia) Hq) as (r & E & L & I & S'). rewrite E. cbn [obind]. exists (q :: r). split; [auto|]. cbn [length]. split; [lia|].
  split; [|split; [discriminate|auto]]. intros x [<-|Hx]; [|auto]. apply IE. exists m. split; [lia|auto].
Qed.

(** ** no chain is longer *)
Lemma chain_bound done ll layers A Cs T : rb_inv done ll layers A Cs -> NoDup T -> incl T done ->
  (forall a c, In a T -> In c T -> X a < X c -> nth a sis 0 < nth c sis 0) -> length T <= length layers.
Proof.
  intros (L1 & L2 & A0 & IC & ID & IE) Hn Hi Hc.
  assert (Hch : exists js, Forall2 (fun e j => j < length Cs /\ In e (nth j Cs [])) T js).
  { clear Hn Hc. induction T as [|e T IH]; [exists []; constructor|]. destruct IH as (js & H); [intros x Hx; apply Hi; right; auto|].
    destruct (proj1 (IE e)) as (j & Hj); [apply Hi; left; auto|]. exists (j :: js). constructor; auto. }
  destruct Hch as (js & H2).
  assert (Hl : length T = length js) by (clear - H2; induction H2; cbn; auto).
  assert (Hjn : NoDup js).
  { clear Hi Hl. induction H2 as [|e j T js [Hj He] H2 IH]; [constructor|]. inversion Hn as [|? ? Hn1 Hn2]; subst. constructor.
    - intros Hin. assert (exists e', In e' T /\ In e' (nth j Cs [])) as (e' & He1 & He2).
      { clear - H2 Hin. induction H2 as [|u v T js [_ Hu] H2 IH]; [contradiction|]. destruct Hin as [->|Hin]; [exists u; split; [left; auto|auto]|]. destruct (IH Hin) as (e' & ? & ?). exists e'. split; [right; auto|auto]. }
      destruct (IC j Hj) as (_ & _ & _ & _ & HS).
      destruct (sorted_pairs _ _ HS e e' He He2) as [->|[[Ha Hb]|[Ha Hb]]]; [auto| |].
      + assert (nth e sis 0 < nth e' sis 0) by (apply Hc; auto; [left; auto|right; auto]). lia.
      + assert (nth e' sis 0 < nth e sis 0) by (apply Hc; auto; [right; auto|left; auto]). lia.
    - apply IH; auto. intros a c Ha Hc'. apply Hc; right; auto. }
  assert (Hji : incl js (seq 0 (length Cs))).
  { intros j Hj. apply in_seq. split; [lia|]. clear - H2 Hj. induction H2 as [|u v T js [Hu _] H2 IH]; [contradiction|]. destruct Hj as [<-|Hj]; [lia|auto]. }
  apply NoDup_incl_length in Hji; auto. rewrite seq_length in Hji. lia.
Qed.
End Rebuild.

(** ** removing the chosen links *)
Definition cursor (s : fstate) (P : list nat) (c : nat) (Q : list nat) : Prop :=
  path (f_list s) (P ++ c :: Q) (last (P ++ c :: Q) 0) /\ f_free s = c /\ f_prev s = last P c /\ f_next s = hd c Q /\
  f_start s = hd 0 (P ++ c :: Q) /\ f_end s = last (P ++ c :: Q) 0.
Lemma last_app_cons {A} (P : list A) c Q d : last (P ++ c :: Q) d = last (c :: Q) d.
Proof. induction P as [|p P IH]; [reflexivity|]. cbn [app]. rewrite last_cons2; [auto|]. destruct P; discriminate. Qed.
Lemma hd_last_eq (q : nat) Q : hd (last (q :: Q) 0) Q = hd q Q.
Proof. destruct Q; reflexivity. Qed.
Lemma f_seek_ok t : forall Q s P c fuel, cursor s P c Q -> In t (c :: Q) -> NoDup (P ++ c :: Q) -> length Q < fuel ->
  exists s' P' Q', f_seek fuel t s = Some s' /\ cursor s' P' t Q' /\ P' ++ t :: Q' = P ++ c :: Q /\ length (f_list s') = length (f_list s).
Proof.
  induction Q as [|q Q IH]; intros s P c fuel Hc Ht Hn Hf; (destruct fuel as [|fuel]; [lia|]); cbn [length] in Hf; cbn [f_seek];
    pose proof Hc as (H1 & H2 & H3 & H4 & H5 & H6); rewrite H2.
  - destruct Ht as [->|[]]. rewrite Nat.eqb_refl. exists s, P, []. auto.
  - destruct (Nat.eqb_spec c t) as [->|Hne]; [exists s, P, (q :: Q); auto|]. destruct Ht as [|Ht]; [congruence|].
    cbn [hd] in H4. rewrite H4. pose proof H1 as H1'. apply path_app in H1'. destruct H1' as [_ H1']. cbn [path] in H1'. destruct H1' as (_ & H1b & _).
    rewrite last_app_cons, last_cons2, hd_last_eq in H1b by discriminate. rewrite H1b. cbn [obind].
    assert (EP : P ++ c :: q :: Q = (P ++ [c]) ++ q :: Q) by (rewrite <- app_assoc; reflexivity).
    destruct (IH (mk_fs q c (hd q Q) (f_list s) (f_start s) (f_end s)) (P ++ [c]) q fuel) as (s' & P' & Q' & E & G1 & G2 & G3).
    + unfold cursor. cbn [f_list f_free f_prev f_next f_start f_end]. rewrite <- EP. split; [auto|]. split; [auto|]. split; [rewrite last_last; auto|]. auto.
    + auto.
    + rewrite <- EP. auto.
    + lia.
    + exists s', P', Q'. rewrite E, G2, EP. auto.
Qed.
(** what is left after a removal *)
Definition flist_ok (s : fstate) (F : list nat) : Prop :=
  path (f_list s) F (last F 0) /\ (F <> [] -> f_start s = hd 0 F /\ f_end s = last F 0).
Lemma f_remove_ok s P c Q : cursor s P c Q -> NoDup (P ++ c :: Q) -> (forall x, In x (P ++ c :: Q) -> x < length (f_list s)) ->
  exists s', f_remove s = Some s' /\ length (f_list s') = length (f_list s) /\ flist_ok s' (P ++ Q) /\ (forall q Q0, Q = q :: Q0 -> cursor s' P q Q0).
Proof.
  intros (H1 & H2 & H3 & H4 & H5 & H6) Hn Hlt. unfold f_remove. rewrite H2, H3, H4.
  assert (Hcn : ~ In c (P ++ Q)) by (apply NoDup_remove_2 in Hn; auto).
  apply path_app in H1. destruct H1 as [Ha Hb]. cbn [hd] in Ha. rewrite last_app_cons in Hb. cbn [path] in Hb. destruct Hb as [Hb Hc].
  destruct (exists_last (l := P ++ [c])) as (P0 & p & EP); [destruct P; discriminate|]. clear P0 p EP.
  destruct P as [|p0 P1].
  - (* nothing before *)
    cbn [last app]. rewrite Nat.eqb_refl. cbn [negb andb]. destruct Q as [|q Q].
    + cbn [hd]. rewrite Nat.eqb_refl. cbn [negb]. exists s. split; [auto|]. split; [auto|]. split; [split; [exact I|congruence]|discriminate].
    + cbn [hd]. destruct (Nat.eqb_spec c q) as [->|Hne]; [exfalso; apply Hcn; left; auto|]. cbn [negb].
      rewrite last_cons2 in Hc by discriminate. pose proof Hc as Hc'. cbn [path] in Hc'. destruct Hc' as [Hc1 _]. rewrite hd_last_eq in Hc1. rewrite Hc1. cbn [obind].
      eexists. split; [reflexivity|]. cbn [f_list f_start f_end]. split; [auto|].
      assert (Hend : f_end s = last (q :: Q) 0) by (rewrite H6; cbn [app]; apply last_cons2; discriminate).
      split; [split; [exact Hc|intros _; cbn [f_start f_end hd]; auto]|]. intros q' Q0 E. injection E as -> ->. unfold cursor. cbn [f_list f_free f_prev f_next f_start f_end app last hd].
      split; [exact Hc|]. auto 10.
  - destruct (exists_last (l := p0 :: P1)) as (A & p & EP); [discriminate|]. set (P := p0 :: P1) in *. clearbody P. subst P. rewrite last_last.
    assert (Hpc : p <> c) by (intros ->; apply Hcn; rewrite !in_app_iff; left; right; left; auto).
    destruct (Nat.eqb_spec p c) as [|_]; [congruence|]. cbn [negb andb].
    assert (HpA : ~ In p A /\ ~ In p Q).
    { rewrite <- app_assoc in Hn. cbn [app] in Hn. apply NoDup_remove_2 in Hn. rewrite in_app_iff in Hn. cbn [In] in Hn. tauto. }
    assert (Hpl : p < length (f_list s)) by (apply Hlt; rewrite !in_app_iff; left; right; left; auto).
    apply path_app in Ha. cbn [hd path] in Ha. destruct Ha as (Ha1 & Ha2 & _).
    destruct Q as [|q Q].
    + cbn [hd]. rewrite Nat.eqb_refl. cbn [negb]. rewrite nth_error_upd_ne by auto. cbn [last hd] in Hb. rewrite Hb. cbn [obind]. eexists. split; [reflexivity|].
      cbn [f_list f_start f_end]. rewrite upd_length, app_nil_r. split; [auto|]. split; [|discriminate].
      unfold flist_ok. cbn [f_list f_start f_end]. rewrite last_last. split.
      * apply path_app. cbn [hd path]. split; [apply path_upd; tauto|]. split; [apply nth_error_upd_eq; auto|auto].
      * intros _. split; [|auto]. rewrite H5. rewrite <- app_assoc. rewrite !hd_app. reflexivity.
    + cbn [hd]. assert (Hqc : c <> q) by (intros ->; apply Hcn; rewrite in_app_iff; right; left; auto).
      destruct (Nat.eqb_spec c q) as [|_]; [congruence|]. cbn [negb]. rewrite last_cons2 in Hc by discriminate.
      pose proof Hc as Hc'. cbn [path] in Hc'. destruct Hc' as [Hc1 _]. rewrite hd_last_eq in Hc1.
      assert (Hpq : p <> q) by (intros ->; apply (proj2 HpA); left; auto).
      rewrite nth_error_upd_ne by auto. rewrite Hc1. cbn [obind]. eexists. split; [reflexivity|]. cbn [f_list f_start f_end]. rewrite upd_length. split; [auto|].
      assert (Hpath : path (upd (f_list s) p q) ((A ++ [p]) ++ q :: Q) (last ((A ++ [p]) ++ q :: Q) 0)).
      { rewrite last_app_cons. apply path_app. cbn [hd]. split; [|apply path_upd; tauto]. apply path_app. cbn [hd path]. split; [apply path_upd; tauto|].
        split; [apply nth_error_upd_eq; auto|auto]. }
      assert (Hst : f_start s = hd 0 ((A ++ [p]) ++ q :: Q)) by (rewrite H5; rewrite <- !app_assoc; rewrite !hd_app; reflexivity).
      assert (Hend : f_end s = last ((A ++ [p]) ++ q :: Q) 0) by (rewrite H6, !last_app_cons; apply last_cons2; discriminate).
      split; [split; [exact Hpath|intros _; cbn [f_start f_end]; auto]|].
      intros q' Q0 E. injection E as -> ->. unfold cursor. cbn [f_list f_free f_prev f_next f_start f_end]. rewrite last_last. auto 10.
Qed.
Lemma sorted_app_lt (P : nat -> nat -> Prop) A B : StronglySorted P (A ++ B) -> StronglySorted P A /\ StronglySorted P B /\ forall a b, In a A -> In b B -> P a b.
Proof.
  induction A as [|x A IH]; cbn [app]; intros H; [split; [constructor|]; split; [auto|contradiction]|]. inversion H as [|? ? H1 H2]; subst.
  destruct (IH H1) as (I1 & I2 & I3). rewrite Forall_app in H2. destruct H2 as [H2 H3]. rewrite Forall_forall in H2, H3.
  split; [constructor; [auto|apply Forall_forall; auto]|]. split; [auto|]. intros a b [<-|Ha] Hb; auto.
Qed.
Lemma f_remove_all_ok fuel : forall links s P c Q, links <> [] -> cursor s P c Q -> StronglySorted lt (P ++ c :: Q) -> StronglySorted lt links -> incl links (c :: Q) ->
  (forall x, In x (P ++ c :: Q) -> x < length (f_list s)) -> length Q < fuel ->
  exists s' F', f_remove_all fuel links s = Some s' /\ flist_ok s' F' /\ StronglySorted lt F' /\ length (f_list s') = length (f_list s) /\
    (forall y, In y F' <-> In y (P ++ c :: Q) /\ ~ In y links) /\ length F' + length links = length (P ++ c :: Q).
Proof.
  induction links as [|t links IH]; intros s P c Q Hne Hc Hs Hsl Hi Hlt Hf; [congruence|]. cbn [f_remove_all].
  destruct (f_seek_ok t Q s P c fuel Hc) as (s1 & P1 & Q1 & E1 & C1 & EF & L1); [apply Hi; left; auto|apply sorted_nodup; auto|auto|].
  rewrite E1. cbn [obind]. rewrite <- EF in *. pose proof (sorted_nodup _ Hs) as Hnd.
  destruct (f_remove_ok s1 P1 t Q1 C1 Hnd) as (s2 & E2 & L2 & F2 & C2). { intros x Hx. rewrite L1. auto. }
  rewrite E2. cbn [obind]. inversion Hsl as [|? ? Hsl1 Hsl2]; subst. rewrite Forall_forall in Hsl2.
  assert (Ht : ~ In t (P1 ++ Q1)) by (apply NoDup_remove_2 in Hnd; auto).
  assert (Hil : incl links Q1).
  { intros y Hy. specialize (Hsl2 y Hy). assert (Hy' : In y (P1 ++ t :: Q1)). { rewrite EF. apply in_or_app. right. apply Hi. right. auto. }
    apply in_app_or in Hy'. destruct Hy' as [Hy'|[->|Hy']]; [|lia|auto]. destruct (sorted_app_lt _ _ _ Hs) as (_ & _ & G). specialize (G y t Hy' (or_introl eq_refl)). lia. }
  destruct links as [|t2 links].
  - exists s2, (P1 ++ Q1). cbn [f_remove_all]. split; [auto|]. split; [auto|]. split; [eapply sorted_remove; eauto|]. split; [lia|]. split.
    + intros y. rewrite !in_app_iff in *. cbn [In] in *. split; [|intuition]. intros H. split; [tauto|]. intros [->|[]]. tauto.
    + rewrite !app_length. cbn [length]. lia.
  - destruct Q1 as [|q Q1]; [exfalso; apply (Hil t2); left; auto|]. specialize (C2 q Q1 eq_refl).
    assert (LQ : length Q1 <= length Q).
    { assert (length (P1 ++ t :: q :: Q1) = length (P ++ c :: Q)) by (rewrite EF; auto). rewrite !app_length in H. cbn [length] in H.
      (* t lies at or after c *)
      destruct (le_lt_dec (length P) (length P1)) as [Hle|Hgt]; [lia|]. exfalso.
      assert (In t P). { assert (G : nth (length P1) (P1 ++ t :: q :: Q1) 0 = t) by (rewrite app_nth2, Nat.sub_diag by lia; reflexivity). rewrite EF in G. rewrite app_nth1 in G by auto. rewrite <- G. apply nth_In. auto. }
      rewrite EF in Hnd. assert (In t (c :: Q)) by (apply Hi; left; auto). destruct (in_split t P H0) as (U & V & EU). subst P. rewrite <- app_assoc in Hnd. cbn [app] in Hnd. apply NoDup_remove_2 in Hnd.
      apply Hnd. rewrite !in_app_iff. auto. }
    destruct (IH s2 P1 q Q1) as (s3 & F3 & E3 & K1 & K2 & K3 & K4 & K5); auto.
    + discriminate.
    + eapply sorted_remove; eauto.
    + intros x Hx. rewrite L2, L1. apply Hlt. rewrite in_app_iff in *. cbn [In] in *. tauto.
    + lia.
    + exists s3, F3. split; [auto|]. split; [auto|]. split; [auto|]. split; [lia|]. split.
      * intros y. rewrite K4. rewrite !in_app_iff in *. cbn [In] in *. split; [intros (H1 & H2)|intuition]. split; [tauto|]. intros [->|H]; tauto.
      * rewrite !app_length in *. cbn [length] in *. lia.
Qed.

Lemma write_prev_ok fl : forall Q c fuel ll prev, path fl (c :: Q) (last (c :: Q) 0) -> NoDup (c :: Q) -> (forall x, In x (c :: Q) -> x < length ll) -> length Q < fuel ->
  exists ll', write_prev fuel fl ll prev c = Some ll' /\ path ll' (rev (c :: Q)) prev /\ length ll' = length ll /\ (forall i, ~ In i (c :: Q) -> nth_error ll' i = nth_error ll i).
Proof.
  induction Q as [|q Q IH]; intros c fuel ll prev Hp Hn Hlt Hf; (destruct fuel as [|fuel]; [lia|]); cbn [write_prev]; cbn [path] in Hp; destruct Hp as [Hp1 Hp2]; rewrite Hp1; cbn [obind].
  - cbn [hd last]. rewrite Nat.eqb_refl. eexists. split; [reflexivity|]. cbn [rev app path hd]. split; [split; [apply nth_error_upd_eq; apply Hlt; left; auto|auto]|].
    split; [apply upd_length|]. intros i Hi. apply nth_error_upd_ne. intros ->. apply Hi. left. auto.
  - cbn [hd]. inversion Hn as [|? ? Hn1 Hn2]; subst. destruct (Nat.eqb_spec c q) as [->|Hne]; [exfalso; apply Hn1; left; auto|]. cbn [length] in Hf.
    destruct (IH q fuel (upd ll c prev) c) as (ll' & E & H1 & H2 & H3); auto.
    + intros x Hx. rewrite upd_length. apply Hlt. right. auto.
    + lia.
    + exists ll'. split; [auto|]. split.
      * change (rev (c :: q :: Q)) with (rev (q :: Q) ++ [c]). apply path_app. cbn [hd path]. split; [auto|]. split; [|auto]. rewrite H3 by auto. apply nth_error_upd_eq. apply Hlt. left. auto.
      * rewrite upd_length in H2. split; [auto|]. intros i Hi. rewrite H3 by (intros H; apply Hi; right; auto). apply nth_error_upd_ne. intros ->. apply Hi. left. auto.
Qed.

Lemma nth_error_eq (u v : list nat) i : nth_error u i = nth_error v i -> nth i u 0 = nth i v 0.
Proof.
  intros E. destruct (nth_error v i) as [x|] eqn:Ev; [rewrite (nth_error_nth _ _ 0 E), (nth_error_nth _ _ 0 Ev); auto|].
  apply nth_error_None in E, Ev. rewrite !nth_overflow; auto.
Qed.

(** ** the main loop *)
Definition longest_inv (sis R dpi : list nat) (b : list bool) : Prop :=
  forall l, l < length b -> exists M, NoDup M /\ (forall i, In i M -> i < length sis /\ ~ In i R /\ nth i dpi 0 = l) /\
    forall T down, NoDup T -> (forall i, In i T -> i < length sis /\ (In i R \/ l <= nth i dpi 0)) -> mono sis T down -> length T <= length M.
Record linv (sis : list nat) (s : lstate) (R : list nat) (b : list bool) : Prop := {
  li_lt : forall x, In x R -> x < length sis;
  li_sorted : StronglySorted lt R;
  li_left : l_left s = length R;
  li_removed : l_removed s = length b;
  li_llen : length (l_ll s) = length sis;
  li_flen : length (l_fl s) = length sis;
  li_ll : R <> [] -> path (l_ll s) (rev R) (hd 0 R);
  li_fl : R <> [] -> path (l_fl s) R (last R 0) /\ l_start s = hd 0 R /\ l_end s = last R 0;
  li_part : partial_ok sis R (l_ll s) b;
  li_long : longest_inv sis R (l_ll s) b }.

Lemma last_rev {A} (l : list A) d : last (rev l) d = hd d l.
Proof. destruct l; [reflexivity|]. cbn [rev hd]. apply last_last. Qed.
Lemma hd_rev {A} (l : list A) d : hd d (rev l) = last l d.
Proof. rewrite <- (rev_involutive l) at 2. symmetry. apply last_rev. Qed.
Lemma sorted_map_impl (P Q : nat -> nat -> Prop) l : (forall a b, In a l -> In b l -> P a b -> Q a b) -> StronglySorted P l -> StronglySorted Q l.
Proof.
  intros H. induction 1 as [|x l H1 IH HF]; constructor.
  - apply IH. intros a b Ha Hb. apply H; right; auto.
  - rewrite Forall_forall in *. intros y Hy. apply H; [left; auto|right; auto|auto].
Qed.
Lemma rebuild_ok (reverse : bool) sis fl ll R front back : is_perm sis -> (N.of_nat (length sis) < 2 ^ 64 - 1)%N ->
  R <> [] -> (forall x, In x R -> x < length sis) -> StronglySorted lt R -> length ll = length sis ->
  (if reverse then path fl R (last R 0) else path ll (rev R) (hd 0 R)) -> front = hd 0 R -> back = last R 0 ->
  exists ll' layers A Cs done, rebuild reverse sis fl front back ll = Some (ll', layers) /\ rb_inv reverse sis done ll' layers A Cs /\
    (forall x, In x done <-> In x R) /\ length ll' = length sis /\ (forall i, ~ In i R -> nth_error ll' i = nth_error ll i).
Proof.
  intros Hp Hl Hne Hlt Hs Hll Hpath -> ->. unfold rebuild.
  assert (LR : length R <= length sis).
  { assert (Hi : incl R (seq 0 (length sis))) by (intros y Hy; apply in_seq; specialize (Hlt y Hy); lia). apply NoDup_incl_length in Hi; [|apply sorted_nodup; auto]. rewrite seq_length in Hi. auto. }
  set (todo := if reverse then R else rev R).
  assert (Ht : forall x, In x todo <-> In x R) by (intros x; unfold todo; destruct reverse; [tauto|symmetry; apply in_rev]).
  assert (Hinv0 : rb_inv reverse sis [] ll [] [(2 ^ 64 - 1)%N] []).
  { unfold rb_inv. cbn [length nth]. split; [auto|]. split; [auto|]. split; [auto|]. split; [intros; lia|]. split; [intros; lia|]. intros e. split; [contradiction|]. intros (j & Hj & _). lia. }
  destruct (rebuild_loop_ok reverse sis Hp Hl fl todo (S (length sis)) [] ll [] [(2 ^ 64 - 1)%N] []) as (ll' & layers & A & Cs & E & I1 & I2 & I3); auto.
  - unfold todo. destruct reverse; [auto|]. intros H. apply Hne. apply (f_equal (@rev nat)) in H. rewrite rev_involutive in H. exact H.
  - intros x Hx. apply Hlt, Ht, Hx.
  - cbn [app]. unfold todo, pt_x. destruct reverse.
    + eapply sorted_map_impl; [|exact Hs]. cbn beta iota. intros a b Ha Hb. apply Hlt in Ha, Hb. lia.
    + apply sorted_rev_gt. exact Hs.
  - intros e [].
  - unfold todo. destruct reverse; [exact Hpath|]. rewrite last_rev. exact Hpath.
  - unfold todo. destruct reverse; [|rewrite rev_length]; lia.
  - exists ll', layers, A, Cs, todo. split.
    + cbn zeta in E. rewrite <- E. unfold todo. destruct reverse; [reflexivity|]. rewrite last_rev, hd_rev. reflexivity.
    + split; [exact I1|]. split; [auto|]. split; [auto|]. intros i Hi. apply I3. rewrite Ht. auto.
Qed.

Lemma opt_loop_ok sis : is_perm sis -> (N.of_nat (length sis) < 2 ^ 64 - 1)%N -> forall fuel R s b, linv sis s R b -> length R <= fuel ->
  exists dpi b', opt_loop fuel sis s b = Some (dpi, b') /\ partial_ok sis [] dpi b' /\ longest_inv sis [] dpi b'.
Proof.
  intros Hp Hl. induction fuel as [|fuel IH]; intros R s b Hinv Hf; destruct Hinv as [H1 H2 H3 H4 H5 H6 H7 H8 H9 H10].
  - destruct R; [|cbn in Hf; lia]. cbn [opt_loop]. rewrite H3. cbn. eauto.
  - cbn [opt_loop]. rewrite H3. destruct (Nat.eqb_spec (length R) 0) as [E0|E0]; [destruct R; [eauto|discriminate]|].
    assert (Hne : R <> []) by (intros ->; apply E0; auto). specialize (H7 Hne). destruct (H8 Hne) as (H8a & H8b & H8c). clear H8.
    destruct (rebuild_ok false sis (l_fl s) (l_ll s) R (l_start s) (l_end s)) as (ll1 & ly1 & A1 & C1 & d1 & E1 & I1 & D1 & L1 & N1); auto.
    rewrite E1. cbn [obind].
    assert (Hd1 : forall e, In e d1 -> e < length sis) by (intros e He; apply H1, D1, He).
    destruct R as [|r0 R0] eqn:ER; [congruence|]. rewrite <- ER in *.
    assert (Hd1n : d1 <> []) by (intros ->; apply (proj2 (D1 r0)); rewrite ER; left; auto).
    destruct (lis_ok false sis Hl d1 ll1 ly1 A1 C1 I1 Hd1 Hd1n) as (inc & Ei & Li & Ii & Ni & Si). rewrite Ei. cbn [obind].
    destruct (rebuild_ok true sis (l_fl s) ll1 R (l_start s) (l_end s)) as (ll2 & ly2 & A2 & C2 & d2 & E2 & I2 & D2 & L2 & N2); auto.
    rewrite E2. cbn [obind].
    assert (Hd2 : forall e, In e d2 -> e < length sis) by (intros e He; apply H1, D2, He).
    assert (Hd2n : d2 <> []) by (intros ->; apply (proj2 (D2 r0)); rewrite ER; left; auto).
    destruct (lis_ok true sis Hl d2 ll2 ly2 A2 C2 I2 Hd2 Hd2n) as (dec & Ed & Ld & Id & Nd & Sd).
    (* the bound *)
    assert (Hb1 : forall T, NoDup T -> incl T R -> mono sis T false -> length T <= length inc).
    { intros T HT1 HT2 HT3. rewrite Li. apply (chain_bound false sis Hl d1 ll1 ly1 A1 C1 T I1 HT1); [intros x Hx; apply D1; auto|]. unfold pt_x. intros a c Ha Hc Hac. apply (HT3 a c); auto. }
    assert (Hb2 : forall T, NoDup T -> incl T R -> mono sis T true -> length T <= length ly2).
    { intros T HT1 HT2 HT3. apply (chain_bound true sis Hl d2 ll2 ly2 A2 C2 T I2 HT1); [intros x Hx; apply D2; auto|]. unfold pt_x. intros a c Ha Hc Hac.
      apply (HT3 c a); auto. pose proof (H1 _ (HT2 _ Ha)). pose proof (H1 _ (HT2 _ Hc)). lia. }
    (* the chosen links *)
    assert (Hch : exists links bit, (if length inc =? length ly2 then Some (inc, false) else if length ly2 <? length inc then Some (inc, false) else do dec <- lis true sis ll2 ly2; Some (dec, true)) = Some (links, bit) /\
       links <> [] /\ incl links R /\ mono sis links bit /\ StronglySorted lt (if forward links then links else rev links) /\
       (forall T down, NoDup T -> incl T R -> mono sis T down -> length T <= length links)).
    { assert (Hinc : inc <> [] /\ incl inc R /\ mono sis inc false /\ StronglySorted lt (if forward inc then inc else rev inc)).
      { split; [auto|]. split; [intros x Hx; apply D1; auto|]. assert (Sl : StronglySorted lt inc) by (eapply sorted_map_impl; [|exact Si]; unfold dom, pt_x; intros; lia). split.
        - intros i j Hi Hj Hij. destruct (sorted_pairs _ _ Si i j Hi Hj) as [E|[[Ea Eb]|[Ea Eb]]]; unfold pt_x in *; lia.
        - replace (forward inc) with true; [auto|]. destruct inc as [|a [|c t]]; try reflexivity. cbn [forward]. symmetry. apply Nat.ltb_lt. inversion Sl as [|? ? _ HF]; subst. inversion HF; auto. }
      assert (Hdec : dec <> [] /\ incl dec R /\ mono sis dec true /\ StronglySorted lt (if forward dec then dec else rev dec)).
      { split; [auto|]. assert (Hin : incl dec R) by (intros x Hx; apply D2; auto). split; [auto|].
        assert (Sl : StronglySorted gt dec). { eapply sorted_map_impl; [|exact Sd]. unfold dom, pt_x. intros a c Ha Hc. apply Hin, H1 in Ha. apply Hin, H1 in Hc. lia. } split.
        - intros i j Hi Hj Hij. destruct (sorted_pairs _ _ Sd i j Hi Hj) as [E|[[Ea Eb]|[Ea Eb]]]; unfold pt_x in *; apply Hin, H1 in Hi; apply Hin, H1 in Hj; lia.
        - destruct dec as [|a [|c t]]; [constructor|repeat constructor|]. replace (forward (a :: c :: t)) with false.
          + clear - Sl. assert (G : forall l, StronglySorted gt l -> StronglySorted lt (rev l)).
            { induction 1 as [|x R H IH HF]; cbn [rev]; [constructor|]. clear - IH HF. assert (HF' : Forall (gt x) (rev R)) by (apply Forall_rev; auto). clear HF. revert HF'. induction IH as [|y l Hy IHy HFy]; intros HF'; cbn [app]; [repeat constructor|].
              inversion HF'; subst. constructor; [auto|]. apply Forall_app. split; [auto|]. constructor; [lia|constructor]. }
            apply G. auto.
          + cbn [forward]. symmetry. apply Nat.ltb_ge. inversion Sl as [|? ? _ HF]; subst. inversion HF; lia. }
      destruct Hinc as (X1 & X2 & X3 & X4). destruct Hdec as (Y1 & Y2 & Y3 & Y4).
      destruct (Nat.eqb_spec (length inc) (length ly2)) as [Eq|Nq]; [|destruct (Nat.ltb_spec (length ly2) (length inc)) as [Lq|Lq]].
      - exists inc, false. split; [auto|]. split; [auto|]. split; [auto|]. split; [auto|]. split; [auto|]. intros T [|] HT1 HT2 HT3; [specialize (Hb2 T HT1 HT2 HT3); lia|auto].
      - exists inc, false. split; [auto|]. split; [auto|]. split; [auto|]. split; [auto|]. split; [auto|]. intros T [|] HT1 HT2 HT3; [specialize (Hb2 T HT1 HT2 HT3); lia|auto].
      - exists dec, true. rewrite Ed. cbn [obind]. split; [auto|]. split; [auto|]. split; [auto|]. split; [auto|]. split; [auto|]. rewrite Ld. intros T [|] HT1 HT2 HT3; [auto|specialize (Hb1 T HT1 HT2 HT3); lia]. }
    destruct Hch as (links & bit & Ec & Hc1 & Hc2 & Hc3 & Hc4 & Hc5). rewrite Ec. cbn [obind]. clear Ec Ei Ed Si Sd E1 E2.
    (* removal *)
    unfold remove_all. cbn [l_ll l_fl l_start l_end l_removed l_left].
    set (asc := if forward links then links else rev links) in *.
    assert (Ha : forall x, In x asc <-> In x links) by (intros x; unfold asc; destruct (forward links); [tauto|symmetry; apply in_rev]).
    assert (La : length asc = length links) by (unfold asc; destruct (forward links); [auto|apply rev_length]).
    rewrite H8b. rewrite ER in H8a, H8c |- *. cbn [hd]. pose proof H8a as H8a'. cbn [path] in H8a'. destruct H8a' as [H8d _]. rewrite hd_last_eq in H8d. rewrite H8d. cbn [obind].
    assert (LR : length (r0 :: R0) <= length sis).
    { rewrite <- ER. assert (Hi : incl R (seq 0 (length sis))) by (intros y Hy; apply in_seq; specialize (H1 y Hy); lia). apply NoDup_incl_length in Hi; [|apply sorted_nodup; auto]. rewrite seq_length in Hi. auto. }
    destruct (f_remove_all_ok (S (length sis)) asc (mk_fs r0 r0 (hd r0 R0) (l_fl s) r0 (l_end s)) [] r0 R0) as (f & F & Ef & F1 & F2 & F3 & F4 & F5).
    + intros E. rewrite E in La. destruct links; [congruence|discriminate].
    + unfold cursor. cbn [app last f_list f_free f_prev f_next f_start f_end hd]. auto 10.
    + cbn [app]. rewrite <- ER. auto.
    + auto.
    + rewrite <- ER. intros x Hx. apply Hc2, Ha, Hx.
    + cbn [app f_list]. rewrite H6, <- ER. auto.
    + cbn [length] in LR. lia.
    + cbn [f_list app] in *. rewrite Ef. cbn [obind]. rewrite <- ER in *. destruct (label_ok (l_removed s) links ll2) as (B1 & B2 & B3). { intros x Hx. rewrite L2. apply H1, Hc2, Hx. }
      fold (label (l_removed s) ll2 links). set (ll3 := label (l_removed s) ll2 links) in *.
      assert (HF : forall y, In y F <-> In y R /\ ~ In y links) by (intros y; rewrite F4, Ha; tauto).
      rewrite La in F5.
      assert (Hw : exists ll4, (if 0 <? length R - length links then write_prev (S (length sis)) (f_list f) ll3 (f_start f) (f_start f) else Some ll3) = Some ll4 /\
        (F <> [] -> path ll4 (rev F) (hd 0 F)) /\ length ll4 = length sis /\ (forall i, ~ In i F -> nth_error ll4 i = nth_error ll3 i)).
      { destruct F as [|c F].
        - cbn [length] in F5. replace (0 <? length R - length links) with false by (symmetry; apply Nat.ltb_ge; lia). exists ll3. split; [auto|]. split; [congruence|]. split; [lia|auto].
        - cbn [length] in F5. replace (0 <? length R - length links) with true by (symmetry; apply Nat.ltb_lt; lia).
          destruct F1 as [Fp Fs]. destruct (Fs ltac:(discriminate)) as [Fs1 Fs2]. cbn [hd] in Fs1. rewrite Fs1.
          destruct (write_prev_ok (f_list f) F c (S (length sis)) ll3 c Fp) as (ll4 & E4 & W1 & W2 & W3).
          + apply sorted_nodup. auto.
          + intros x Hx. rewrite B1, L2. apply H1. apply HF in Hx. tauto.
          + lia.
          + exists ll4. split; [auto|]. split; [intros _; cbn [hd]; auto|]. split; [lia|auto]. }
      destruct Hw as (ll4 & Ew & W1 & W2 & W3). rewrite Ew. cbn [obind].
      assert (N3 : forall i, ~ In i R -> nth i ll4 0 = nth i (l_ll s) 0).
      { intros i Hi. rewrite (nth_error_eq ll4 ll3) by (apply W3; rewrite HF; tauto). rewrite B3 by (intros H; apply Hi, Hc2, H). apply nth_error_eq. rewrite N2, N1; auto. }
      assert (N4 : forall i, In i links -> nth i ll4 0 = length b).
      { intros i Hi. rewrite (nth_error_eq ll4 ll3) by (apply W3; rewrite HF; tauto). rewrite B2 by auto. auto. }
      apply (IH F).
      * constructor; cbn [l_ll l_fl l_start l_end l_removed l_left]; auto.
        -- intros x Hx. apply H1. apply HF in Hx. tauto.
        -- lia.
        -- rewrite app_length. cbn [length]. lia.
        -- lia.
        -- intros HFn. destruct F1 as [Fp Fs]. auto.
        -- eapply (round_ok sis R F links (l_ll s)); eauto.
        -- intros l Hlb. rewrite app_length in Hlb. cbn [length] in Hlb. destruct H9 as (Q1 & Q2 & _). destruct (Nat.eq_dec l (length b)) as [->|Hne2].
           ++ exists links. split; [|split].
              ** assert (NoDup asc) by (apply sorted_nodup; auto). unfold asc in H. destruct (forward links); [auto|]. apply NoDup_rev in H. rewrite rev_involutive in H. auto.
              ** intros i Hi. split; [apply H1, Hc2, Hi|]. split; [rewrite HF; tauto|auto].
              ** intros T down HT1 HT2 HT3. apply (Hc5 T down); auto. intros i Hi. destruct (HT2 i Hi) as [G1 [G2|G2]]; [apply HF in G2; tauto|].
                 destruct (in_dec Nat.eq_dec i R) as [|Hn]; [auto|]. rewrite N3 in G2 by auto. specialize (Q2 i G1 Hn). lia.
           ++ destruct (H10 l ltac:(lia)) as (M & M1 & M2 & M3). exists M. split; [auto|]. split.
              ** intros i Hi. destruct (M2 i Hi) as (G1 & G2 & G3). split; [auto|]. split; [rewrite HF; tauto|]. rewrite N3; auto.
              ** intros T down HT1 HT2 HT3. apply (M3 T down); auto. intros i Hi. destruct (HT2 i Hi) as [G1 G2]. split; [auto|].
                 destruct (in_dec Nat.eq_dec i R) as [|Hn]; [auto|]. right. destruct G2 as [G2|G2]; [apply HF in G2; tauto|]. rewrite N3 in G2; auto.
      * destruct links; [congruence|]. cbn [length] in F5. lia.
Qed.

(** The subsequence of number l is as long as any monotone one among the entries with
    number l or above *)
Theorem sub_optimal_ok sis : is_perm sis -> sis <> [] -> (N.of_nat (length sis) < 2 ^ 64 - 1)%N ->
  exists dpi b, sub_optimal sis = Some (dpi, b) /\ subseq_ok sis dpi b /\ longest_ok sis dpi b.
Proof.
  intros Hp Hne Hl. unfold sub_optimal. set (n := length sis). assert (Hn : 1 <= n) by (unfold n; destruct sis; [congruence|cbn; lia]).
  assert (Nn : forall (f : nat -> nat) i, i < n -> nth_error (map f (seq 0 n)) i = Some (f i)).
  { intros f i Hi. rewrite nth_error_map, nth_error_nth' with (d := 0) by (rewrite seq_length; auto). rewrite seq_nth by auto. reflexivity. }
  destruct (opt_loop_ok sis Hp Hl n (seq 0 n) (mk_ls (map (fun i => i - 1) (seq 0 n)) (map (fun i => if i =? n - 1 then i else i + 1) (seq 0 n)) 0 (n - 1) 0 n) []) as (dpi & b & E & O1 & O2).
  - assert (Eh : hd 0 (seq 0 n) = 0) by (destruct n; reflexivity).
    assert (El : last (seq 0 n) 0 = n - 1) by (destruct n as [|m]; [lia|]; rewrite seq_S, last_last; cbn; lia).
    constructor; cbn [l_ll l_fl l_start l_end l_removed l_left]; rewrite ?map_length, ?seq_length; auto.
    + intros x Hx. apply in_seq in Hx. fold n. lia.
    + apply seq_sorted.
    + intros _. rewrite Eh. apply path_rev_seq. intros i Hi. rewrite Nn by auto. destruct (Nat.eqb_spec i 0) as [->|]; reflexivity.
    + intros _. rewrite Eh, El. split; [|auto]. apply path_seq. intros i Hi. cbn [plus]. rewrite Nn by auto. destruct (Nat.eqb_spec i (n - 1)) as [->|]; reflexivity.
    + apply round_start. rewrite map_length, seq_length. auto.
    + intros l Hl'. cbn in Hl'. lia.
  - rewrite seq_length. auto.
  - exists dpi, b. split; [exact E|]. split; [apply round_end; auto|]. intros l Hlb T down HT1 HT2 HT3. destruct (O2 l Hlb) as (M & M1 & M2 & M3).
    etransitivity; [apply (M3 T down); auto; intros i Hi; destruct (HT2 i Hi); auto|]. apply NoDup_incl_length; auto. intros i Hi. destruct (M2 i Hi) as (G1 & _ & G3).
    apply filter_In. split; [apply in_seq; lia|apply Nat.eqb_eq; auto].
Qed.
Theorem sub_optimal_sub_ok : sub_ok sub_optimal.
Proof. intros sis H1 H2 H3. destruct (sub_optimal_ok sis H1 H2 H3) as (dpi & b & E & O & _). eauto. Qed.
