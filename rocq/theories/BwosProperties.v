(** * BwosProperties: C26 (bwos::lifo_queue). *)
From Coq Require Import List Arith Bool Lia ZArith NArith.
From Verif Require Import Conc BwosModel BwosSpec BwosProofs.
Import ListNotations.
Set Implicit Arguments.

(** ** vocabulary lemmas *)
Lemma np_cons v e l : n_pushed v (e :: l) = (match e with EPush u => if u =? v then 1 else 0 | _ => 0 end) + n_pushed v l.
Proof. unfold n_pushed. simpl. destruct e; auto. destruct (_ =? _); auto. Qed.
Lemma no_cons v e l : n_popped v (e :: l) = (match e with EPop (Some u) => if u =? v then 1 else 0 | _ => 0 end) + n_popped v l.
Proof. unfold n_popped. simpl. destruct e as [| | |[u|]| |]; auto. destruct (_ =? _); auto. Qed.
Lemma nc_cons v e l : n_claimed v (e :: l) = (match e with EClaim _ u => if u =? v then 1 else 0 | _ => 0 end) + n_claimed v l.
Proof. unfold n_claimed. simpl. destruct e; auto. destruct (_ =? _); auto. Qed.
Lemma ns_cons v e l : n_stolen v (e :: l) = (match e with ESteal _ (Some u) => if u =? v then 1 else 0 | _ => 0 end) + n_stolen v l.
Proof. unfold n_stolen. simpl. destruct e as [| | | | |t [u|]]; auto. destruct (_ =? _); auto. Qed.
Definition occ (v : task) (q : list task) : nat := count_occ Nat.eq_dec q v.
Lemma occ_app v a b : occ v (a ++ b) = occ v a + occ v b.
Proof. apply count_occ_app. Qed.
Lemma occ_cons v u a : occ v (u :: a) = (if u =? v then 1 else 0) + occ v a.
Proof. unfold occ. simpl. destruct (Nat.eq_dec u v), (Nat.eqb_spec u v); auto; tauto. Qed.
Lemma deque_count l q : deque l q -> forall v, n_pushed v l = n_popped v l + n_claimed v l + occ v q.
Proof.
  induction 1; intros u; [reflexivity| | | | | | |]; specialize (IHdeque u);
    rewrite ?np_cons, ?no_cons, ?nc_cons; rewrite ?occ_app, ?occ_cons in *; change (occ u []) with 0 in *; lia.
Qed.
Lemma hist_split l1 : forall e l2, hist (l1 ++ e :: l2) -> good e l2.
Proof. induction l1; simpl; intros e l2 H; [tauto|]. apply IHl1. tauto. Qed.
Lemma deque_app l1 : forall l2 q, deque (l1 ++ l2) q -> exists q2, deque l2 q2.
Proof. induction l1 as [|e l1 IH]; simpl; intros l2 q H; [eauto|]. inversion H; subst; eauto. Qed.

(** ** The queue is a linearizable deque with stealing: the history of effects (push_back's
    publications, pop_back's results, thieves' claims) is one of a sequential double-ended queue in
    which pop_back returns the task pushed last among those still there, and reports "empty" exactly
    when nothing is there.  Any number of blocks, any block size, any number of thieves, rounds wrapping
    modulo 2^32. *)
Theorem C26_linearizable : forall nb bs s, reachable nb bs s -> exists q, deque (log s) q.
Proof. intros nb bs s R. destruct (reachable_inv R) as (gs & go & I). eexists. apply I. Qed.

(** a thief returns exactly the tasks it claimed, each right after claiming it *)
Theorem C26_thief_returns_claim : forall nb bs s, reachable nb bs s ->
  forall l1 t v l2, log s = l1 ++ ESteal t v :: l2 -> holding t l2 = v.
Proof.
  intros nb bs s R l1 t v l2 E. destruct (reachable_inv R) as (gs & go & I).
  pose proof (i_hist I) as H. rewrite E in H. apply hist_split in H. exact H.
Qed.

Definition holds_v (v : task) (l : list event) (t : tid) : bool :=
  match holding t l with Some u => u =? v | None => false end.
Lemma filter_ext_len (f g : nat -> bool) l : (forall x, In x l -> f x = g x) -> length (filter f l) = length (filter g l).
Proof. intros H. f_equal. apply filter_ext_in; auto. Qed.
Lemma filter_switch (f g : nat -> bool) t : forall k, t < k -> (forall x, x <> t -> g x = f x) ->
  length (filter g (seq 0 k)) + (if f t then 1 else 0) = length (filter f (seq 0 k)) + (if g t then 1 else 0).
Proof.
  induction k; intros L E; [lia|]. rewrite seq_S, !filter_app, !app_length. simpl.
  destruct (Nat.eq_dec t k) as [->|N].
  - rewrite (@filter_ext_len g f (seq 0 k)) by (intros x Hx; apply in_seq in Hx; apply E; lia).
    destruct (f k), (g k); simpl; lia.
  - specialize (IHk ltac:(lia) E). rewrite (E k) by auto. destruct (f k); simpl; lia.
Qed.
Lemma claimed_stolen v k : forall l, hist l -> Forall (ev_lt k) l ->
  n_claimed v l = n_stolen v l + length (filter (holds_v v l) (seq 0 k)).
Proof.
  induction l as [|e l IH]; intros H F.
  - unfold n_claimed, n_stolen. simpl. assert (forall n, length (filter (holds_v v []) (seq n k)) = 0); [|auto].
    induction k; simpl; auto.
  - destruct H as [G H]. inversion F; subst. specialize (IH H H3). rewrite nc_cons, ns_cons.
    destruct e as [vs|u|rs|[u|]|t u|t [u|]]; simpl in *;
      try exact IH.
    + pose proof (@filter_switch (holds_v v l) (holds_v v (EClaim t u :: l)) t k H2) as X.
      assert (A : holds_v v l t = false) by (unfold holds_v; rewrite G; auto).
      assert (B : holds_v v (EClaim t u :: l) t = (u =? v)) by (unfold holds_v; simpl; rewrite Nat.eqb_refl; auto).
      rewrite A, B in X. specialize (X ltac:(intros x N; unfold holds_v; simpl; destruct (Nat.eqb_spec t x); auto; congruence)). unfold tid, task in *. lia.
    + pose proof (@filter_switch (holds_v v l) (holds_v v (ESteal t (Some u) :: l)) t k H2) as X.
      assert (A : holds_v v l t = (u =? v)) by (unfold holds_v; rewrite G; auto).
      assert (B : holds_v v (ESteal t (Some u) :: l) t = false) by (unfold holds_v; simpl; rewrite Nat.eqb_refl; auto).
      rewrite A, B in X. specialize (X ltac:(intros x N; unfold holds_v; simpl; destruct (Nat.eqb_spec t x); auto; congruence)). unfold tid, task in *. lia.
    + pose proof (@filter_switch (holds_v v l) (holds_v v (ESteal t None :: l)) t k H2) as X.
      assert (A : holds_v v l t = false) by (unfold holds_v; rewrite G; auto).
      assert (B : holds_v v (ESteal t None :: l) t = false) by (unfold holds_v; simpl; rewrite Nat.eqb_refl; auto).
      rewrite A, B in X. specialize (X ltac:(intros x N; unfold holds_v; simpl; destruct (Nat.eqb_spec t x); auto; congruence)). unfold tid, task in *. lia.
Qed.

(** ** C26: no task is handed out more often than it was pushed; nothing that was not pushed is handed
    out; and none is lost: what was pushed and not handed out is still in the queue, or held by a thief
    which is about to return it. *)
Theorem C26_each_task_once : forall nb bs s, reachable nb bs s -> exists q, deque (log s) q /\ forall v,
  n_pushed v (log s) = n_popped v (log s) + n_stolen v (log s)
    + length (filter (fun t => match holding t (log s) with Some u => u =? v | None => false end) (seq 0 (length (thr s))))
    + occ v q.
Proof.
  intros nb bs s R. destruct (reachable_inv R) as (gs & go & I). eexists. split; [apply I|]. intros v.
  rewrite (deque_count (i_deque I) v). rewrite (@claimed_stolen v (length (thr s)) (log s)); [|apply I|eapply reachable_tids; eauto].
  unfold holds_v. lia.
Qed.
Theorem C26_at_most_once : forall nb bs s v, reachable nb bs s ->
  n_popped v (log s) + n_stolen v (log s) <= n_pushed v (log s).
Proof. intros nb bs s v R. destruct (C26_each_task_once R) as (q & _ & H). rewrite (H v). lia. Qed.

(** pop_back returns null only when every task pushed so far has been handed out or claimed *)
Theorem C26_pop_null_means_empty : forall nb bs s, reachable nb bs s -> forall l1 l2, log s = l1 ++ EPop None :: l2 ->
  forall v, n_pushed v l2 = n_popped v l2 + n_claimed v l2.
Proof.
  intros nb bs s R l1 l2 E v. destruct (C26_linearizable R) as [q D]. rewrite E in D. destruct (deque_app _ _ D) as [q2 D2].
  inversion D2; subst. rewrite (deque_count H0 v). unfold occ. simpl. lia.
Qed.

(** push_back: what was accepted and what it reports as not accepted make up the argument, in order *)
Theorem C26_push_accounting : forall nb bs s, reachable nb bs s -> forall l1 rest l2, log s = l1 ++ EPushRet rest :: l2 ->
  exists l3 vs l4 acc, l2 = l3 ++ EPushCall vs :: l4 /\ vs = acc ++ rest /\
    filter (fun e => match e with EPush _ => true | _ => false end) l3 = rev (map EPush acc) /\
    (forall ws, ~ In (EPushRet ws) l3) /\ (forall o, ~ In (EPop o) l3).
Proof.
  intros nb bs s R l1 rest l2 E. destruct (reachable_inv R) as (gs & go & I).
  pose proof (i_hist I) as H. rewrite E in H. pose proof (hist_split _ _ _ H) as (vs & acc & G1 & G2).
  assert (H2 : hist l2) by (clear - H; induction l1; simpl in H; [tauto|apply IHl1; tauto]).
  assert (K : exists l3 l4, l2 = l3 ++ EPushCall vs :: l4 /\
     filter (fun e => match e with EPush _ => true | _ => false end) l3 = rev (map EPush acc) /\
    (forall ws, ~ In (EPushRet ws) l3) /\ (forall o, ~ In (EPop o) l3)).
  { clear - G1 H2. revert acc G1 H2. induction l2 as [|e l2 IH]; simpl; intros acc G1 H2; [discriminate|]. destruct H2 as [G H2].
    destruct e as [ws|u|ws|o|t u|t o]; simpl in G.
    - inversion G1; subst. exists [], l2. simpl. auto.
    - destruct (pushing l2) as [[vs0 acc0]|]; [|discriminate]. inversion G1; subst.
      destruct (IH acc0 eq_refl H2) as (l3 & l4 & -> & F & A & B). exists (EPush u :: l3), l4. simpl.
      split; auto. split; [rewrite F, map_app, rev_app_distr; auto|]. split; intros x [X|X]; try discriminate; [eapply A|eapply B]; eauto.
    - discriminate.
    - congruence.
    - destruct (IH acc G1 H2) as (l3 & l4 & -> & F & A & B). exists (EClaim t u :: l3), l4. simpl.
      split; auto. split; auto. split; intros x [X|X]; try discriminate; [eapply A|eapply B]; eauto.
    - destruct (IH acc G1 H2) as (l3 & l4 & -> & F & A & B). exists (ESteal t o :: l3), l4. simpl.
      split; auto. split; auto. split; intros x [X|X]; try discriminate; [eapply A|eapply B]; eauto. }
  destruct K as (l3 & l4 & K1 & K2 & K3 & K4). exists l3, vs, l4, acc. auto.
Qed.

(** push_back refuses a task only if there is a single block, or the queue is not empty (the block that
    would be reused still holds unclaimed tasks) *)
Theorem C26_push_refuses_only_if_full : forall nb bs s s' rest, reachable nb bs s -> ostep nb bs OGo s = Some s' ->
  log s' = EPushRet rest :: log s -> rest <> [] -> nb = 1 \/ exists v q, deque (log s) (v :: q).
Proof.
  intros nb bs s s' rest R E L NR. destruct (reachable_inv R) as (gs & go & I). unfold ostep in E.
  assert (X : exists bulk, opc_ s = PA bulk rest).
  { assert (NE : forall (l : list event) x, l = x :: l -> False) by (intros l x K; apply (f_equal (@length _)) in K; simpl in K; lia).
    destruct (opc_ s) as [|bulk r w|bulk r|bulk r|bulk r|bulk r e|bulk r|bulk r|bulk r|bulk r|bulk r| | |v| |] eqn:Epc; try discriminate;
      try (inversion E; subst; simpl in L; exfalso; eapply NE; eauto; fail).
    - exfalso. pose proof (i_pend I) as P. rewrite Epc in P. destruct P as (vs & acc & P1 & _). destruct r as [|v r].
      + inversion E; subst. simpl in L. inversion L; subst. congruence.
      + destruct (_ && _); [inversion E; subst; simpl in L; eapply NE; eauto|]. destruct bulk; inversion E; subst; simpl in L; [|eapply NE; eauto].
        destruct (rev (map EPush w)) as [|e0 l0] eqn:Er; [simpl in L; eapply NE; eauto|].
        simpl in L. assert (In e0 (map EPush w)) by (apply in_rev; rewrite Er; left; auto).
        inversion L; subst. apply in_map_iff in H. destruct H as (? & ? & _). discriminate.
    - destruct (_ =? _); [inversion E; subst; simpl in L; inversion L; subst; eauto|].
      destruct (word_eqb _ _); inversion E; subst; simpl in L; [exfalso; eapply NE; eauto|inversion L; subst; eauto].
    - exfalso. destruct (_ =? _); inversion E; subst; simpl in L; eapply NE; eauto.
    - exfalso. destruct (_ =? _); inversion E; subst; simpl in L; eapply NE; eauto.
    - exfalso. destruct (_ || _); [destruct (word_eqb _ _)|]; inversion E; subst; simpl in L; try (inversion L; fail); eapply NE; eauto. }
  destruct X as [bulk Epc]. rewrite Epc in E.
  assert (OW : own s = enc nb go) by (apply I; congruence). rewrite OW in E. cbn [snd enc] in E.
  pose proof (i_nb I) as NB. pose proof (i_rng I) as RG. rewrite next_ix_mod in E by auto.
  destruct (Nat.eqb_spec (S go mod nb) (go mod nb)) as [Ei|Ni].
  - left. destruct (succ_cases go NB) as [(A & B & _)|(A & B & _)]; lia.
  - right. destruct (word_eqb _ _) eqn:W; [inversion E; subst; simpl in L; exfalso; apply (f_equal (@length _)) in L; simpl in L; lia|].
    unfold next_owner in W. rewrite OW, increase_enc in W by auto. cbn [fst enc] in W.
    destruct (Nat.eq_dec (S go) (gs + nb)) as [X|X].
    + assert (LT : gs < go). { destruct (Nat.eq_dec nb 1) as [->|]; [|lia]. exfalso. apply Ni. rewrite !Nat.mod_1_r. auto. }
      destruct (i_grant I (c := gs)) as (G1 & G2 & G3); [lia|].
      rewrite X, mod_wrap in W by auto. rewrite rnd_wrap in W by auto.
      destruct (i_wf I (i := gs mod nb)) as (W1 & W2 & W3 & W4 & W5); [apply Nat.mod_upper_bound; lia|].
      set (b := blks s (gs mod nb)) in *.
      assert (SL : snd (stail b) < bs).
      { destruct (Nat.eq_dec (snd (stail b)) bs) as [Es|]; [|lia]. exfalso.
        assert (stail b = (rnd nb gs, bs)) by (destruct (stail b); simpl in *; congruence).
        rewrite (proj2 (word_eqb_eq _ _) H) in W. discriminate. }
      destruct (@slice_claim bs b SL G2 ltac:(rewrite G1; auto)) as (S1 & _ & _).
      pose proof (i_deque I) as D. unfold Qof in D. replace (go - gs) with (S (go - S gs)) in D by lia.
      cbn [seq flat_map] in D. fold b in D. rewrite S1 in D. simpl in D. eauto.
    + exfalso. destruct (i_free I (c := S go)) as [F _]; [lia|]. rewrite (proj2 (word_eqb_eq _ _) F) in W. discriminate.
Qed.

(** push_back waits (spins) only for thieves that have claimed a task of the block but not finished
    copying it; if no thief is in the middle of a steal it goes on at once *)
Theorem C26_owner_waits_only_for_thieves : forall nb bs s s', reachable nb bs s -> ostep nb bs OGo s = Some s' ->
  s' <> s \/ exists t v, t < length (thr s) /\ holding t (log s) = Some v /\
     (exists s2, tstep nb bs t TGo s = Some s2).
Proof.
  intros nb bs s s' R E. destruct (reachable_inv R) as (gs & go & I). unfold ostep in E.
  assert (NQ : forall p, opc_ s <> p -> w_opc s p <> s) by (intros p N X; apply N; rewrite <- X; auto).
  destruct (opc_ s) as [|bulk r w|bulk r|bulk r|bulk r|bulk r e|bulk r|bulk r|bulk r|bulk r|bulk r| | |v| |] eqn:Epc; try discriminate;
    try (left; inversion E; subst; intros X; apply (f_equal opc_) in X; simpl in X; rewrite Epc in X; discriminate).
  - left. destruct r as [|x r].
    + inversion E; subst. intros X; apply (f_equal opc_) in X; simpl in X; rewrite Epc in X; discriminate.
    + destruct (_ && _); [|destruct bulk]; inversion E; subst; intros X; apply (f_equal opc_) in X; simpl in X; rewrite Epc in X; try discriminate.
      inversion X. apply (f_equal (@length _)) in H0. simpl in H0. lia.
  - left. destruct (_ =? _); [|destruct (word_eqb _ _)]; inversion E; subst; intros X; apply (f_equal opc_) in X; simpl in X; rewrite Epc in X; discriminate.
  - assert (OW : own s = enc nb go) by (apply I; congruence). rewrite OW in E. cbn [snd enc] in E.
    destruct (Nat.eqb_spec (scount (blks s (go mod nb))) (snd (head (blks s (go mod nb))))) as [Q|Q].
    + left. inversion E; subst. intros X; apply (f_equal opc_) in X; simpl in X; rewrite Epc in X; discriminate.
    + right. pose proof (i_cur I) as C. rewrite Epc in C. destruct C as [C1 C2].
      pose proof (cnt_cur I) as K. rewrite Epc in K. specialize (K eq_refl).
      rewrite (@cl_full bs (blks s (go mod nb))) in K by (rewrite C1; auto).
      destruct (@sumz_pos_ex _ (wfl (go mod nb)) (thr s)) as (t & p & Ht & W).
      { pose proof (@sumz_nonneg _ (wfl (go mod nb)) (thr s) (wfl_nonneg _)). lia. }
      pose proof (i_tok I _ Ht) as T. exists t. destruct p; simpl in W; try lia; simpl in T.
      * eexists. split; [apply nth_error_Some; congruence|]. split; [apply T|]. unfold tstep. rewrite Ht. eauto.
      * eexists. split; [apply nth_error_Some; congruence|]. split; [apply T|]. unfold tstep. rewrite Ht. eauto.
  - left. destruct (_ || _); [destruct (word_eqb _ _)|]; inversion E; subst; intros X; apply (f_equal opc_) in X; simpl in X; rewrite Epc in X; discriminate.
Qed.

(** ** concrete histories *)
Inductive act := O (a : oaction) | T (t : tid) (a : taction).
Section Run.
Variables nb bs : nat.
Definition act_step (a : act) (s : state) : option state :=
  match a with O a => ostep nb bs a s | T t a => tstep nb bs t a s end.
Fixpoint runs (l : list act) (s : state) : option state :=
  match l with [] => Some s | a :: l => match act_step a s with Some s' => runs l s' | None => None end end.
Lemma runs_reachable l : forall s s', reachable nb bs s -> runs l s = Some s' -> reachable nb bs s'.
Proof.
  induction l as [|a l IH]; simpl; intros s s' R E; [inversion E; subst; auto|].
  destruct (act_step a s) eqn:Q; [|discriminate]. eapply IH; [|exact E].
  destruct a; [eapply r_owner|eapply r_thief]; eauto.
Qed.
End Run.
Definition rep {A} (n : nat) (a : A) : list A := repeat a n.
(** two blocks of two: a bulk push of three fills block 0 and grants it; a thief takes the oldest task
    while the owner takes the block back and pops the two others; then the queue is empty *)
Definition ex1 : option (list event * list tpc) :=
  option_map (fun s => (log s, thr s)) (runs 2 2
    ([O (OBulk [7; 8; 9])] ++ rep 14 (O OGo) ++ [T 0 TSteal; T 0 TGo; T 0 TGo; T 0 TGo] ++
     [O OPop; O OGo; O OPop] ++ rep 6 (O OGo) ++ [T 0 TGo; O OPop; O OGo; T 0 TGo])
    (init 2 (fun _ _ => 0) 1)).
Example ex1_result : ex1 = Some
  ([ESteal 0 (Some 7); EPop None; EPop (Some 8); EPop (Some 9); EClaim 0 7; EPushRet [];
    EPush 9; EPush 8; EPush 7; EPushCall [7; 8; 9]], [TIdle]).
Proof. vm_compute. reflexivity. Qed.
(** the queue of capacity two refuses the third task while full, and a second bulk push after a steal
    takes the freed block *)
Definition ex2 : option (list event) :=
  option_map log (runs 2 1
    ([O (OBulk [7; 8; 9])] ++ rep 14 (O OGo) ++ [T 0 TSteal] ++ rep 5 (T 0 TGo) ++ [O (OBulk [9])] ++ rep 12 (O OGo))
    (init 1 (fun _ _ => 0) 1)).
Example ex2_result : ex2 = Some
  [EPushRet []; EPush 9; EPushCall [9]; ESteal 0 (Some 7); EClaim 0 7; EPushRet [9]; EPush 8; EPush 7; EPushCall [7; 8; 9]].
Proof. vm_compute. reflexivity. Qed.

Print Assumptions C26_linearizable.
Print Assumptions C26_thief_returns_claim.
Print Assumptions C26_each_task_once.
Print Assumptions C26_at_most_once.
Print Assumptions C26_pop_null_means_empty.
Print Assumptions C26_push_accounting.
Print Assumptions C26_push_refuses_only_if_full.
Print Assumptions C26_owner_waits_only_for_thieves.

