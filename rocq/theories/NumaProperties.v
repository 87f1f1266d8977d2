(** C72: static_thread_pool honours NUMA constraints when it places a task. *)
From Coq Require Import List ZArith NArith Bool Arith Lia Sorted Permutation.
From Verif Require Import Conc EvenShareModel EvenShareProperties NumaModel.
Import ListNotations.
Set Implicit Arguments.

(** ** Specification *)
(** A pool as the constructor builds it, with a policy whose nodes exist: the table has every thread once with its node, sorted by node. *)
Definition built (p : pool) : Prop :=
  Permutation (table p) (combine (nodes p) (seq 0 (length (nodes p)))) /\ StronglySorted (fun a b => fst a <= fst b) (table p)
  /\ Forall (fun k => k < num_nodes p) (nodes p) /\ nodes p <> [].
(** thread t runs on an allowed node *)
Definition allowed (p : pool) (m : mask) (t : nat) : Prop := exists k, nth_error (nodes p) t = Some k /\ m k = true.

(** ** Sorted tables *)
Definition seg (t : list entry) (k : nat) := filter (fun e => fst e =? k) t.
Lemma sorted_split t k : StronglySorted (fun a b : entry => fst a <= fst b) t ->
  t = filter (fun e => fst e <? k) t ++ seg t k ++ filter (fun e => k <? fst e) t.
Proof.
  induction 1 as [|a t S IH F]; auto. unfold seg in *. simpl.
  destruct (lt_eq_lt_dec (fst a) k) as [[L|E]|G].
  - rewrite (proj2 (Nat.ltb_lt _ _) L), (proj2 (Nat.eqb_neq _ _)), (proj2 (Nat.ltb_ge k (fst a))) by lia. simpl. f_equal. auto.
  - rewrite (proj2 (Nat.ltb_ge (fst a) k)), (proj2 (Nat.eqb_eq _ _) E), (proj2 (Nat.ltb_ge k (fst a))) by lia.
    assert (Z : filter (fun e => fst e <? k) t = []).
    { clear -F E. induction F as [|b t B F IH]; auto. simpl. rewrite (proj2 (Nat.ltb_ge _ _)) by lia. auto. }
    unfold entry in *. rewrite Z in IH |- *. simpl in *. f_equal. auto.
  - rewrite (proj2 (Nat.ltb_ge (fst a) k)), (proj2 (Nat.eqb_neq _ _)), (proj2 (Nat.ltb_lt _ _) G) by lia.
    assert (Z : forall f, (forall n, n <=? k = false -> f n = false) -> filter (fun e : entry => f (fst e)) t = []).
    { intros f Hf. clear -F G Hf. induction F as [|b t B F IH]; auto. simpl. rewrite Hf by (apply Nat.leb_gt; lia). auto. }
    assert (Z1 : filter (fun e : entry => fst e <? k) t = []) by (apply (Z (fun n => n <? k)); intros n Hn; apply Nat.leb_gt in Hn; apply Nat.ltb_ge; lia).
    assert (Z2 : filter (fun e : entry => fst e =? k) t = []) by (apply (Z (fun n => n =? k)); intros n Hn; apply Nat.leb_gt in Hn; apply Nat.eqb_neq; lia).
    unfold entry in *. rewrite Z1, Z2 in IH |- *. simpl in *. f_equal. auto.
Qed.
Lemma upper_lower t k : upper t k = lower t k + length (seg t k).
Proof.
  unfold upper, lower, seg. induction t as [|a t IH]; auto. simpl. destruct (lt_eq_lt_dec (fst a) k) as [[L|E]|G].
  - rewrite (proj2 (Nat.leb_le _ _)), (proj2 (Nat.ltb_lt _ _) L), (proj2 (Nat.eqb_neq _ _)) by lia. simpl. lia.
  - rewrite (proj2 (Nat.leb_le _ _)), (proj2 (Nat.ltb_ge (fst a) k)), (proj2 (Nat.eqb_eq _ _) E) by lia. simpl. lia.
  - rewrite (proj2 (Nat.leb_gt _ _)), (proj2 (Nat.ltb_ge (fst a) k)), (proj2 (Nat.eqb_neq _ _)) by lia. lia.
Qed.
Section Pool.
Variable p : pool.
Hypothesis B : built p.
Let t := table p.
Lemma split k : t = filter (fun e => fst e <? k) t ++ seg t k ++ filter (fun e => k <? fst e) t.
Proof. apply sorted_split. apply B. Qed.
Lemma num_threads_seg k : num_threads p k = length (seg t k).
Proof.
  unfold num_threads. fold t. rewrite upper_lower. destruct (Nat.eqb_spec (lower t k) (length t)) as [E|E]; [|lia].
  pose proof (f_equal (@length _) (split k)) as S. rewrite !app_length in S. unfold lower in E. lia.
Qed.
Lemma get_seg k i : i < length (seg t k) -> exists e, nth_error (seg t k) i = Some e /\ get_thread_index p k i = Some (snd e).
Proof.
  intros L. destruct (nth_error (seg t k) i) as [e|] eqn:E; [|apply nth_error_None in E; lia]. exists e. split; auto.
  unfold get_thread_index. fold t. pose proof (f_equal (@length _) (split k)) as S. rewrite !app_length in S.
  destruct (Nat.eqb_spec (lower t k) (length t)) as [X|X]; [unfold lower in X; lia|].
  assert (N : nth_error t (lower t k + i) = Some e).
  { rewrite (split k) at 1. rewrite nth_error_app2 by (unfold lower; lia). unfold lower. rewrite Nat.add_comm, Nat.add_sub. rewrite nth_error_app1; auto. }
  rewrite N. auto.
Qed.
Lemma in_table k i : In (k, i) t <-> nth_error (nodes p) i = Some k.
Proof.
  destruct B as (P & _). fold t in P. split; intros H.
  - apply (Permutation_in _ P) in H. clear -H. revert H. generalize (nodes p) as l. intros l.
    assert (G : forall l s, In (k, i) (combine l (seq s (length l))) -> s <= i /\ nth_error l (i - s) = Some k).
    { induction l0 as [|a l0 IH]; intros s H; simpl in H; [tauto|]. destruct H as [H|H].
      - inversion H; subst. split; auto. rewrite Nat.sub_diag. auto.
      - apply IH in H. destruct H as [H1 H2]. split; [lia|]. replace (i - s) with (S (i - S s)) by lia. auto. }
    intros H. apply G in H. rewrite Nat.sub_0_r in H. tauto.
  - apply (Permutation_in _ (Permutation_sym P)).
    assert (G : forall l s j, nth_error l j = Some k -> In (k, s + j) (combine l (seq s (length l)))).
    { induction l as [|a l IH]; intros s [|j] E; simpl in *; try discriminate; [left; inversion E; f_equal; lia|right]. replace (s + S j) with (S s + j) by lia. auto. }
    apply (G (nodes p) 0). auto.
Qed.
Lemma seg_in k e : In e (seg t k) <-> fst e = k /\ nth_error (nodes p) (snd e) = Some k.
Proof.
  unfold seg. rewrite filter_In, Nat.eqb_eq. destruct e as [a i]. simpl. split.
  - intros [H ->]. split; auto. apply in_table; auto.
  - intros [-> H]. split; auto. apply in_table; auto.
Qed.
(** the threads of the allowed nodes among ks, in the order in which they are counted *)
Definition cands (m : mask) (ks : list nat) : list nat := flat_map (fun k => if m k then map snd (seg t k) else []) ks.
Lemma cands_app m a b : cands m (a ++ b) = cands m a ++ cands m b.
Proof. unfold cands. apply flat_map_app. Qed.
Lemma pick_cands m ks : forall target, pick p m ks target = if target <? length (cands m ks) then nth_error (cands m ks) target else Some (target - length (cands m ks)).
Proof.
  induction ks as [|k ks IH]; intros target; simpl.
  - rewrite Nat.sub_0_r. auto.
  - destruct (m k); simpl; [|apply IH]. rewrite num_threads_seg, app_length, map_length. destruct (Nat.ltb_spec target (length (seg t k))) as [L|L].
    + rewrite (proj2 (Nat.ltb_lt target (length (seg t k) + length (cands m ks)))) by lia. rewrite nth_error_app1 by (rewrite map_length; auto). destruct (get_seg k L) as (e & E1 & E2). rewrite E2. erewrite map_nth_error; eauto.
    + rewrite IH. rewrite nth_error_app2 by (rewrite map_length; lia). rewrite map_length.
      destruct (Nat.ltb_spec (target - length (seg t k)) (length (cands m ks))), (Nat.ltb_spec target (length (seg t k) + length (cands m ks))); try lia; auto. f_equal. lia.
Qed.
Lemma mask_count m : num_threads_mask p m = length (cands m (seq 0 (back_node p + 1))).
Proof.
  unfold num_threads_mask. assert (G : forall ks n, fold_left (fun n k => if m k then n + num_threads p k else n) ks n = n + length (cands m ks)).
  { induction ks as [|k ks IH]; intros n; simpl; [lia|]. rewrite IH, app_length. destruct (m k); simpl; [rewrite num_threads_seg, map_length; lia|lia]. }
  apply G.
Qed.
Lemma back_max e : In e t -> fst e <= back_node p.
Proof.
  unfold back_node. destruct B as (_ & S & _). fold t in S |- *. intros H. destruct (rev t) as [|b r] eqn:R.
  - apply (f_equal (@rev _)) in R. rewrite rev_involutive in R. simpl in R. rewrite R in H. destruct H.
  - apply (f_equal (@rev _)) in R. rewrite rev_involutive in R. simpl in R. rewrite R in H, S. apply in_app_or in H. destruct H as [H|[<-|[]]]; auto.
    clear -S H. revert H. induction (rev r) as [|x l IH]; intros H; [destruct H|]. simpl in S. inversion S as [|? ? S' F]; subst. destruct H as [<-|H]; [|auto].
    rewrite Forall_forall in F. apply F. apply in_or_app. simpl. auto.
Qed.
Lemma seg_empty k : (forall e, In e t -> fst e <> k) -> seg t k = [].
Proof. intros H. destruct (seg t k) as [|e l] eqn:E; auto. exfalso. assert (I : In e (seg t k)) by (rewrite E; simpl; auto). unfold seg in I. rewrite filter_In, Nat.eqb_eq in I. eapply H; [apply I|tauto]. Qed.
Lemma cands_empty m ks : (forall k, In k ks -> seg t k = []) -> cands m ks = [].
Proof. induction ks as [|k ks IH]; intros H; auto. simpl. rewrite (H k) by (simpl; auto). rewrite IH by (intros; apply H; simpl; auto). destruct (m k); auto. Qed.
Lemma nodes_below e : In e t -> fst e < num_nodes p.
Proof. destruct e as [k i]. intros H. apply in_table in H. destruct B as (_ & _ & F & _). rewrite Forall_forall in F. apply F. eapply nth_error_In; eauto. Qed.
Lemma cands_all m n : (forall e, In e t -> fst e < n) -> forall n', n <= n' -> cands m (seq 0 n') = cands m (seq 0 n).
Proof.
  intros H n' L. replace n' with (n + (n' - n)) by lia. rewrite seq_app, cands_app. rewrite (@cands_empty m (seq (0 + n) (n' - n))); [apply app_nil_r|].
  intros k K. apply in_seq in K. apply seg_empty. intros e E X. specialize (H _ E). lia.
Qed.
Lemma mask_count2 m : num_threads_mask p m = length (cands m (seq 0 (num_nodes p))).
Proof.
  rewrite mask_count. set (n := Nat.max (back_node p + 1) (num_nodes p)).
  rewrite <- (@cands_all m (back_node p + 1)) with (n' := n); [|intros e E; apply back_max in E; lia|lia].
  rewrite <- (@cands_all m (num_nodes p)) with (n' := n); [auto|apply nodes_below|lia].
Qed.
Lemma cands_in m i : In i (cands m (seq 0 (num_nodes p))) <-> allowed p m i.
Proof.
  unfold cands, allowed. rewrite in_flat_map. split.
  - intros (k & _ & I). destruct (m k) eqn:M; [|destruct I]. apply in_map_iff in I. destruct I as (e & <- & I). apply seg_in in I. exists k. tauto.
  - intros (k & N & M). exists k. split.
    + apply in_seq. destruct B as (_ & _ & F & _). rewrite Forall_forall in F. specialize (F k (nth_error_In _ _ N)). lia.
    + rewrite M. apply in_map_iff. exists (k, i). split; auto. apply seg_in. auto.
Qed.
Lemma nodup_snd : NoDup (map snd t).
Proof.
  destruct B as (P & _). fold t in P. eapply Permutation_NoDup; [apply Permutation_sym, Permutation_map, P|].
  assert (G : forall (l : list nat) s, map snd (combine l (seq s (length l))) = seq s (length l)) by (induction l; intros; simpl; f_equal; auto).
  rewrite G. apply seq_NoDup.
Qed.
Lemma cands_nodup m n : NoDup (cands m (seq 0 n)).
Proof.
  assert (S : forall s n, NoDup (cands m (seq s n))); [|apply S]. clear n. intros s n. revert s. induction n as [|n IH]; intros s; simpl; [constructor|].
  assert (D : NoDup (if m s then map snd (seg t s) else [])).
  { destruct (m s); [|constructor]. pose proof nodup_snd as N. clear -N. unfold seg. induction t as [|a l I]; simpl in *; [constructor|]. inversion N; subst. destruct (fst a =? s); simpl; auto.
    constructor; auto. intros X. apply H1. apply in_map_iff in X. destruct X as (e & E & X). apply filter_In in X. apply in_map_iff. exists e; tauto. }
  fold (cands m (seq (S s) n)). assert (A : forall x, In x (if m s then map snd (seg t s) else []) -> ~ In x (cands m (seq (S s) n))).
  { intros x X Y. destruct (m s); [|destruct X]. apply in_map_iff in X. destruct X as (e & <- & X). apply seg_in in X. unfold cands in Y. apply in_flat_map in Y. destruct Y as (k & K & Y).
    apply in_seq in K. destruct (m k); [|destruct Y]. apply in_map_iff in Y. destruct Y as (e' & E' & Y). apply seg_in in Y. rewrite E' in Y. destruct X as [_ X], Y as [_ Y]. rewrite X in Y. inversion Y. lia. }
  revert D A. generalize (if m s then map snd (seg t s) else []). induction l as [|x l IL]; intros D A; simpl; [apply IH|]. inversion D; subst. constructor; [|apply IL; auto; intros y Y; apply A; simpl; auto].
  rewrite in_app_iff. intros [X|X]; [tauto|]. eapply A; [|exact X]. simpl; auto.
Qed.

(** The choice is a thread of an allowed node whenever there is one; no assertion fails and no access is out of range. *)
Theorem numa_choice_allowed m start : (exists i, allowed p m i) -> exists i, random_thread p m start = Some i /\ allowed p m i.
Proof.
  intros [i0 I0]. apply cands_in in I0. unfold random_thread. rewrite mask_count2. set (c := cands m (seq 0 (num_nodes p))) in *.
  assert (L : length c <> 0) by (destruct c; simpl; [destruct I0|lia]). rewrite (proj2 (Nat.eqb_neq _ _) L), (proj2 (Nat.eqb_neq _ _) L). simpl.
  pose proof (Nat.mod_upper_bound start _ L) as U. rewrite pick_cands. fold c. rewrite (proj2 (Nat.ltb_lt _ _) U).
  destruct (nth_error c (start mod length c)) as [i|] eqn:E; [|apply nth_error_None in E; lia]. exists i. split; auto. apply cands_in. eapply nth_error_In; eauto.
Qed.
(** If no thread is allowed, all threads take part. *)
Theorem numa_choice_fallback m start : (forall i, ~ allowed p m i) -> random_thread p m start = Some (start mod count p) /\ start mod count p < count p.
Proof.
  intros N. unfold random_thread. rewrite mask_count2. set (c := cands m (seq 0 (num_nodes p))) in *.
  assert (C : c = []). { destruct c as [|i l] eqn:E; auto. exfalso. apply (N i). apply cands_in. fold c. rewrite E. simpl. auto. }
  rewrite C. simpl. assert (count p <> 0). { destruct B as (_ & _ & _ & X). unfold count. destruct (nodes p); simpl; [congruence|lia]. }
  rewrite (proj2 (Nat.eqb_neq _ _)) by auto. split; auto. apply Nat.mod_upper_bound. auto.
Qed.
(** Successive choices take turns: of n successive values of the counter, n the number of allowed threads, each allowed thread is chosen by exactly one. *)
Theorem numa_round_robin m start ts : NoDup ts -> (forall i, In i ts <-> allowed p m i) -> forall i, In i ts ->
  exists! j, j < length ts /\ random_thread p m (start + j) = Some i.
Proof.
  intros ND T i I. set (c := cands m (seq 0 (num_nodes p))).
  assert (PM : length ts = length c).
  { apply Permutation_length. apply NoDup_Permutation; auto. apply cands_nodup. intros x. rewrite T. symmetry. apply cands_in. }
  assert (Ic : In i c) by (apply cands_in, T; auto). assert (L : length c <> 0) by (destruct c; simpl; [destruct Ic|lia]).
  assert (R : forall s, random_thread p m s = nth_error c (s mod length c)).
  { intros s. unfold random_thread. rewrite mask_count2. fold c. rewrite (proj2 (Nat.eqb_neq _ _) L), (proj2 (Nat.eqb_neq _ _) L). simpl. rewrite pick_cands. fold c. rewrite (proj2 (Nat.ltb_lt _ _)); auto. apply Nat.mod_upper_bound; auto. }
  apply In_nth_error in Ic. destruct Ic as [q Q]. assert (QL : q < length c) by (apply nth_error_Some; congruence).
  rewrite PM. set (n := length c) in *. pose proof (Nat.mod_upper_bound start n L) as SB.
  exists ((q + (n - start mod n)) mod n). pose proof (Nat.mod_upper_bound (q + (n - start mod n)) n L) as JB.
  assert (KEY : forall j, j < n -> ((start + j) mod n = q <-> j = (q + (n - start mod n)) mod n)).
  { intros j J. rewrite <- Nat.add_mod_idemp_l by auto. set (s := start mod n) in *.
    assert (E1 : (s + j) mod n = if s + j <? n then s + j else s + j - n).
    { destruct (Nat.ltb_spec (s + j) n); [apply Nat.mod_small; auto|]. transitivity ((s + j - n + 1 * n) mod n); [f_equal; lia|]. rewrite Nat.mod_add by auto. apply Nat.mod_small. lia. }
    assert (E2 : (q + (n - s)) mod n = if q + (n - s) <? n then q + (n - s) else q + (n - s) - n).
    { destruct (Nat.ltb_spec (q + (n - s)) n); [apply Nat.mod_small; auto|]. transitivity ((q + (n - s) - n + 1 * n) mod n); [f_equal; lia|]. rewrite Nat.mod_add by auto. apply Nat.mod_small. lia. }
    rewrite E1, E2. destruct (Nat.ltb_spec (s + j) n), (Nat.ltb_spec (q + (n - s)) n); lia. }
  split.
  - split; [exact JB|]. rewrite R. rewrite (proj2 (KEY _ JB) eq_refl). auto.
  - intros j [J1 J2]. symmetry. apply KEY; auto. rewrite R in J2.
    apply (proj1 (NoDup_nth_error c) (cands_nodup m (num_nodes p))); [apply Nat.mod_upper_bound; auto|congruence].
Qed.
(** A task goes to an allowed thread whenever there is one: to the caller's own queue if the caller is one, else to the chosen thread. *)
Theorem numa_enqueue_allowed m me start : (exists i, allowed p m i) ->
  exists i, allowed p m i /\ (enqueue p m me start = Some (Local i) /\ i = me \/ enqueue p m me start = Some (Remote i) /\ ~ allowed p m me).
Proof.
  intros A. destruct (numa_choice_allowed start A) as (i & E & Ai). unfold enqueue. rewrite E. destruct (nth_error (nodes p) me) as [k|] eqn:N.
  - destruct (m k) eqn:M.
    + exists me. split; [exists k; auto|auto].
    + exists i. split; auto. right. split; auto. intros (k' & N' & M'). congruence.
  - exists i. split; auto. right. split; auto. intros (k' & N' & M'). congruence.
Qed.
End Pool.

(** ** Bulk *)
(** The full claim for a batch is false: a batch enqueued from a thread that is not allowed is spread over all threads, allowed or not. *)
Theorem numa_bulk_constraints_refuted : exists p m me tasks, built p /\ (exists i, allowed p m i) /\
  exists i l x, In (Remote i, l) (bulk_enqueue p m me tasks) /\ In x l /\ ~ allowed p m i.
Proof.
  exists (mkp [0; 1] 2 [(0, 0); (1, 1)]), (fun k => k =? 1), 2, [7; 8]. split.
  { split; [apply Permutation_refl|]. split; [repeat constructor; simpl; lia|]. split; [repeat constructor; simpl; lia|discriminate]. }
  split; [exists 1, 1; auto|]. exists 0, [7], 7. split; [left; vm_compute; reflexivity|]. split; [simpl; auto|]. intros (k & N & M). simpl in N. inversion N; subst. discriminate.
Qed.
Lemma shares_concat n size : (0 < size)%N -> (n < word)%N -> forall len r tasks,
  (N.of_nat (r + len) = size)%N -> N.of_nat (length tasks) = (n - fst (even_share n (N.of_nat r) size))%N -> (fst (even_share n (N.of_nat r) size) <= n)%N -> len <> 0 ->
  concat (map snd (shares n size (seq r len) tasks)) = tasks.
Proof.
  intros Sz Nw. destruct (C36_even_share n size Sz Nw) as (H0 & HN & HS & HO). induction len as [|len IH]; intros r tasks R L LE NZ; [congruence|].
  cbn [seq shares]. pose proof (HO (N.of_nat r) ltac:(lia)) as HR. destruct (even_share n (N.of_nat r) size) as [b e] eqn:E. cbn [fst] in *. destruct HR as (R1 & R2 & _).
  assert (NX : forall c, c = N.to_nat (e - b) -> concat (map snd (shares n size (seq (S r) len) (skipn c tasks))) = skipn c tasks).
  { intros c C. destruct (Nat.eq_dec len 0) as [->|LN].
    - simpl. assert (EN : e = n). { replace (size - 1)%N with (N.of_nat r) in HN by lia. rewrite E in HN. auto. }
      rewrite skipn_all2; auto. lia.
    - assert (EN : e = fst (even_share n (N.of_nat (S r)) size)). { specialize (HS (N.of_nat r) ltac:(lia)). rewrite E in HS. cbn [snd] in HS. rewrite HS. f_equal. f_equal. lia. }
      apply IH; auto; try lia. rewrite skipn_length, <- EN. lia. }
  destruct (N.eqb_spec b e) as [Q|Q].
  - specialize (NX 0 ltac:(lia)). simpl in NX. exact NX.
  - simpl. rewrite NX by auto. apply firstn_skipn.
Qed.
(** Every task of a batch is enqueued exactly once, in order; all on the caller's queue if the caller is allowed. *)
Theorem numa_bulk_all_once p m me tasks : built p -> (N.of_nat (length tasks) < word)%N ->
  concat (map snd (bulk_enqueue p m me tasks)) = tasks /\ (allowed p m me -> bulk_enqueue p m me tasks = [(Local me, tasks)]).
Proof.
  intros B W. assert (C : count p <> 0) by (destruct B as (_ & _ & _ & X); unfold count; destruct (nodes p); simpl; [congruence|lia]).
  assert (S : concat (map snd (shares (N.of_nat (length tasks)) (N.of_nat (count p)) (seq 0 (count p)) tasks)) = tasks).
  { destruct (C36_even_share (N.of_nat (length tasks)) (N.of_nat (count p)) ltac:(lia) W) as (H0 & _). apply shares_concat; try lia; change (N.of_nat 0) with 0%N; rewrite H0; lia. }
  split.
  - unfold bulk_enqueue. destruct (nth_error (nodes p) me) as [k|]; auto. destruct (m k); auto. simpl. apply app_nil_r.
  - intros (k & N & M). unfold bulk_enqueue. rewrite N, M. auto.
Qed.
(** A thread steals from every other thread and never from itself; its near victims are those on its node. *)
Theorem numa_victims p me i : (In i (all_victims p me) <-> i < count p /\ i <> me) /\
  (In i (near_victims p me) <-> In i (all_victims p me) /\ exists k, nth_error (nodes p) i = Some k /\ nth_error (nodes p) me = Some k).
Proof.
  split.
  - unfold all_victims. rewrite filter_In, in_seq, negb_true_iff, Nat.eqb_neq. intuition lia.
  - unfold near_victims. rewrite filter_In. split; intros [H1 H2]; split; auto.
    + destruct (nth_error (nodes p) i), (nth_error (nodes p) me); try discriminate. apply Nat.eqb_eq in H2. subst. eauto.
    + destruct H2 as (k & -> & ->). apply Nat.eqb_refl.
Qed.

(** ** default_numa_policy *)
Local Open Scope Z_scope.
Fixpoint sum (l : list Z) : Z := match l with [] => 0 | x :: l => x + sum l end.
Fixpoint exact (s : Z) (l : list Z) : list Z := match l with [] => [] | c :: l => (s + c) :: exact (s + c) l end.
Lemma to_int_small x : 0 <= x < 2 ^ 31 -> to_int x = x.
Proof. intros H. unfold to_int. rewrite Z.mod_small by lia. destruct (Z.ltb_spec x (2 ^ 31)); lia. Qed.
Lemma sum_pos l : Forall (fun c => 0 <= c) l -> 0 <= sum l.
Proof. induction 1; simpl; lia. Qed.
Lemma prefix_exact l : Forall (fun c => 0 <= c) l -> forall s, 0 <= s -> s + sum l < 2 ^ 31 -> prefix s l = exact s l.
Proof. induction 1 as [|c l C F IH]; intros s S T; auto. simpl in *. pose proof (sum_pos F). rewrite to_int_small by lia. f_equal. apply IH; lia. Qed.
Lemma exact_last l : l <> [] -> forall s, exists h, exact s l = h ++ [s + sum l].
Proof.
  induction l as [|c l IH]; intros N s; [congruence|]. destruct l as [|d l].
  - exists []. simpl. f_equal. lia.
  - destruct (IH ltac:(discriminate) (s + c)) as [h H]. exists (s + c :: h). change (exact s (c :: d :: l)) with (s + c :: exact (s + c) (d :: l)). rewrite H. simpl. do 3 f_equal. lia.
Qed.
Lemma exact_length l : forall s, length (exact s l) = length l.
Proof. induction l; simpl; auto. Qed.
Lemma exact_above l : Forall (fun c => 0 <= c) l -> forall s v, v < s -> filter (fun x => x <=? v) (exact s l) = [].
Proof. induction 1 as [|c l C F IH]; intros s v V; auto. simpl. rewrite (proj2 (Z.leb_gt _ _)) by lia. apply IH. lia. Qed.
Lemma upper_exact l : Forall (fun c => 0 <= c) l -> forall s v, s <= v < s + sum l ->
  let k := length (filter (fun x => x <=? v) (exact s l)) in (k < length l)%nat /\ s + sum (firstn k l) <= v < s + sum (firstn (S k) l).
Proof.
  induction 1 as [|c l C F IH]; intros s v V; simpl in V; [lia|]. cbn [exact filter]. destruct (Z.leb_spec (s + c) v).
  - destruct (IH (s + c) v ltac:(lia)) as [K1 K2]. cbn zeta in *. cbn [length]. set (k := length (filter (fun x => x <=? v) (exact (s + c) l))) in *. split; [lia|].
    change (firstn (S k) (c :: l)) with (c :: firstn k l). change (firstn (S (S k)) (c :: l)) with (c :: firstn (S k) l). cbn [sum]. lia.
  - rewrite exact_above by (auto; lia). simpl. lia.
Qed.
Lemma sum_firstn_mono l : Forall (fun c => 0 <= c) l -> forall a b, (a <= b)%nat -> sum (firstn a l) <= sum (firstn b l).
Proof.
  induction 1 as [|c l C F IH]; intros a b L; [rewrite !firstn_nil; lia|]. destruct a, b; simpl; try lia.
  - assert (P : Forall (fun c => 0 <= c) (firstn b l)). { rewrite Forall_forall in *. intros x X. apply F. rewrite <- (firstn_skipn b l). apply in_or_app; auto. }
    apply sum_pos in P. lia.
  - specialize (IH a b ltac:(lia)). lia.
Qed.
(** Thread indices are dealt to the nodes in blocks as long as the nodes' numbers of CPUs, again and again: of any (total) consecutive indices from a multiple of it, node k gets as many as it has CPUs. *)
Theorem numa_policy_blocks cpus idx k : Forall (fun c => 0 <= c) cpus -> 0 < sum cpus < 2 ^ 31 -> 0 <= idx < 2 ^ 31 ->
  (thread_index_to_node cpus idx = Some k <-> (k < length cpus)%nat /\ sum (firstn k cpus) <= idx mod sum cpus < sum (firstn (S k) cpus)).
Proof.
  intros F T I. unfold thread_index_to_node, node_index. rewrite prefix_exact by (auto; lia).
  assert (N : cpus <> []) by (intros ->; simpl in T; lia). destruct (exact_last N 0) as [h H]. rewrite H, rev_app_distr. cbn [rev app]. rewrite <- H. clear h H.
  rewrite Z.add_0_l, (proj2 (Z.eqb_neq _ _)), to_int_small by lia. rewrite Z.rem_mod_nonneg by lia.
  pose proof (Z.mod_pos_bound idx (sum cpus) ltac:(lia)) as M. destruct (@upper_exact cpus F 0 (idx mod sum cpus)) as [K1 K2]; [lia|].
  cbn zeta in *. set (q := length (filter (fun x => x <=? idx mod sum cpus) (exact 0 cpus))) in *. rewrite exact_length, (proj2 (Nat.ltb_lt _ _) K1). rewrite !Z.add_0_l in K2. split.
  - intros E. inversion E; subst. auto.
  - intros [L1 L2]. f_equal. destruct (lt_eq_lt_dec q k) as [[X|X]|X]; auto.
    + pose proof (sum_firstn_mono F (a := S q) (b := k) ltac:(lia)). lia.
    + pose proof (sum_firstn_mono F (a := S k) (b := q) ltac:(lia)). lia.
Qed.
(** The full claim is false where the CPUs of no node can be determined (L125, L132 return 0): division by zero. *)
Theorem numa_policy_no_cpus_refuted : exists cpus, cpus <> [] /\ Forall (fun c => 0 <= c) cpus /\ forall idx, thread_index_to_node cpus idx = None.
Proof. exists [0]. split; [discriminate|]. split; [repeat constructor; lia|]. intros. reflexivity. Qed.
(** ... and for indices from 2^31 on, which become negative: a node without CPUs is chosen. *)
Theorem numa_policy_big_index_refuted : exists cpus idx k, 0 <= idx < 2 ^ 64 /\ thread_index_to_node cpus idx = Some k /\ nth_error cpus k = Some 0 /\ 0 < sum cpus.
Proof. exists [0; 3], (2 ^ 31), 0%nat. repeat split; vm_compute; auto; discriminate. Qed.

(** ** Examples *)
Example ex_pool : pool := mkp [0; 1; 0; 1; 1]%nat 2 [(0, 0); (0, 2); (1, 1); (1, 3); (1, 4)]%nat.
Example ex_built : built ex_pool.
Proof.
  split; [|split; [repeat constructor; simpl; lia|split; [repeat constructor; simpl; lia|discriminate]]]. simpl.
  apply perm_skip. apply (perm_trans (l' := [(1, 1); (0, 2); (1, 3); (1, 4)]%nat)); [apply perm_swap|apply Permutation_refl].
Qed.
Example ex_choice : map (random_thread ex_pool (fun k => Nat.eqb k 1)) [3; 4; 5; 6]%nat = [Some 1; Some 3; Some 4; Some 1]%nat.
Proof. vm_compute. reflexivity. Qed.
Example ex_policy : map (thread_index_to_node [2; 0; 3]) [0; 1; 2; 3; 4; 5; 6; 7] = [Some 0; Some 0; Some 2; Some 2; Some 2; Some 0; Some 0; Some 2]%nat.
Proof. vm_compute. reflexivity. Qed.
