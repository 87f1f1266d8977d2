(** * C37: bulk on static_thread_pool calls the function once per index and completes once *)

From Coq Require Import List Arith Bool NArith ZArith Lia Permutation.
From Verif Require Import Conc EvenShareModel EvenShareProperties PoolBulkModel.
Import ListNotations.
Set Implicit Arguments.
Arguments Z.add : simpl never.
Arguments Z.sub : simpl never.
Arguments Z.of_nat : simpl never.
Arguments share : simpl never.
Arguments Nat.eqb : simpl never.
Arguments even_share : simpl never.

(** ** What is observed *)
(** the indices for which the function was called, by one call or as part of a chunk *)
Definition idx (e : event) : list nat :=
  match e with ECall _ i => [i] | EChunk _ b e => seq b (e - b) | _ => [] end.
Definition indices (l : list event) : list nat := flat_map idx l.
Definition is_out (e : event) : bool := match e with EOut _ => true | _ => false end.
Definition completions (l : list event) : nat := cnt is_out l.
Definition threw (l : list event) (x : exn) : Prop := exists t, In (EThrow t x) l.

(** ** Proof *)
Definition idx_of (t : nat) (e : event) : list nat :=
  match e with
  | ECall u i => if u =? t then [i] else []
  | EChunk u b e => if u =? t then seq b (e - b) else []
  | _ => []
  end.
Fixpoint calls (t : nat) (l : list event) : list nat :=
  match l with [] => [] | e :: l => calls t l ++ idx_of t e end.
Definition tag (e : event) : option nat :=
  match e with ECall t _ | EChunk t _ _ | EThrow t _ => Some t | _ => None end.

Lemma in_indices l i : In i (indices l) <-> exists t, In i (calls t l).
Proof.
  unfold indices. induction l as [|e l IH]; simpl.
  - firstorder.
  - rewrite in_app_iff, IH. split.
    + intros [H|[t H]]; [|exists t; rewrite in_app_iff; auto].
      destruct e as [u|t j|t b e|t x|o]; simpl in H; try tauto; exists t; rewrite in_app_iff; right;
        simpl; rewrite Nat.eqb_refl; auto.
    + intros [t H]. rewrite in_app_iff in H. destruct H as [H|H]; [right; eauto|left].
      destruct e as [u|t' j|t' b e|t' x|o]; simpl in *; try tauto; destruct (t' =? t); simpl in *; tauto.
Qed.

Definition past (p : apc) : Z := match p with ALast | ADone => 1 | _ => 0 end.
Definition lastw (p : apc) : Z := match p with ALast => 1 | _ => 0 end.

Lemma past_nn p : (0 <= past p)%Z. Proof. destruct p; simpl; lia. Qed.
Lemma lastw_nn p : (0 <= lastw p)%Z. Proof. destruct p; simpl; lia. Qed.
Lemma sum_le_len l : (sumz past l <= Z.of_nat (length l))%Z.
Proof. induction l as [|p l IH]; simpl length; simpl sumz; [lia|]. rewrite Nat2Z.inj_succ. destruct p; simpl past; lia. Qed.
Lemma sum_full l : sumz past l = Z.of_nat (length l) -> forall p, In p l -> past p = 1%Z.
Proof.
  induction l as [|q l IH]; simpl length; simpl sumz; intros H p; [simpl; tauto|].
  rewrite Nat2Z.inj_succ in H. pose proof (sum_le_len l).
  assert (past q <= 1)%Z by (destruct q; simpl; lia).
  intros [<- | Hp]; [lia|]. apply IH; auto. lia.
Qed.


Section Params.
Variable shape threads : nat.
Variable parallelize chunked nothrow : bool.
Notation m := (num_agents shape threads parallelize).
Notation sh t := (share shape t (num_agents shape threads parallelize)).
Notation step := (step shape threads parallelize chunked nothrow).
Notation reachable := (reachable shape threads parallelize chunked nothrow).

Hypothesis Hthr : 0 < threads.
Hypothesis Hw : (N.of_nat shape < word)%N.
Hypothesis Hshape : 0 < shape.

Lemma m_pos : 0 < m.
Proof. unfold num_agents. destruct parallelize; lia. Qed.
Lemma m_le : m <= threads.
Proof. unfold num_agents. destruct parallelize; lia. Qed.
Lemma m_le_shape : m <= shape.
Proof. unfold num_agents. destruct parallelize; lia. Qed.

Lemma share_ok t : t < m -> fst (sh t) < snd (sh t) /\ snd (sh t) <= shape.
Proof.
  intros Ht. unfold share.
  pose proof m_le_shape as Hm.
  destruct (@C36_even_share (N.of_nat shape) (N.of_nat m)) as (_ & _ & _ & H); [lia|auto|].
  specialize (H (N.of_nat t)).
  destruct (even_share _ _ _) as [b e]. simpl. destruct H as (H1 & H2 & H3); [lia|].
  assert (1 <= N.of_nat shape / N.of_nat m)%N by (apply N.div_le_lower_bound; lia).
  lia.
Qed.

Lemma share_unique i t u : t < m -> u < m ->
  fst (sh t) <= i < snd (sh t) -> fst (sh u) <= i < snd (sh u) -> t = u.
Proof.
  intros Ht Hu H1 H2.
  assert (Hi : i < shape) by (pose proof (share_ok Ht); lia).
  destruct (@C36_every_index_in_one_share (N.of_nat shape) (N.of_nat m) (N.of_nat i)) as [r [_ Hr]]; [lia|auto|lia|].
  unfold share in *.
  pose proof (Hr (N.of_nat t)) as Ha. pose proof (Hr (N.of_nat u)) as Hb.
  destruct (even_share _ (N.of_nat t) _) as [b e]. destruct (even_share _ (N.of_nat u) _) as [b' e'].
  simpl in *. assert (r = N.of_nat t) by (apply Ha; lia). assert (r = N.of_nat u) by (apply Hb; lia). lia.
Qed.

Lemma share_cover i : i < shape -> exists t, t < m /\ fst (sh t) <= i < snd (sh t).
Proof.
  intros Hi. pose proof m_pos.
  destruct (@C36_every_index_in_one_share (N.of_nat shape) (N.of_nat m) (N.of_nat i)) as [r [[H1 H2] _]]; [lia|auto|lia|].
  exists (N.to_nat r). unfold share. rewrite N2Nat.id.
  destruct (even_share _ _ _) as [b e]. simpl in *. lia.
Qed.

Local Opaque share.

(** the calls made by agent t and its program counter agree *)
Definition quiet t l := forall x, ~ In (EThrow t x) l.
Definition some_calls t l := exists k, fst (sh t) + k <= snd (sh t) /\ calls t l = seq (fst (sh t)) k.
Definition all_calls t l := calls t l = seq (fst (sh t)) (snd (sh t) - fst (sh t)).
Definition pcok (t : nat) (p : apc) (l : list event) : Prop :=
  match p with
  | ANew => calls t l = [] /\ quiet t l
  | AQueued q => q = t /\ calls t l = [] /\ quiet t l
  | ARun q c e => q = t /\ e = snd (sh t) /\ fst (sh t) <= c <= e /\ (chunked = true -> c = fst (sh t)) /\
                  calls t l = seq (fst (sh t)) (c - fst (sh t)) /\ quiet t l
  | AThrew q x => q = t /\ In (EThrow t x) l /\ some_calls t l
  | AStore x => In (EThrow t x) l /\ some_calls t l
  | AFin | ALast | ADone => some_calls t l /\ (all_calls t l /\ quiet t l \/ exists x, In (EThrow t x) l)
  end.

Lemma calls_other t e l : tag e <> Some t -> calls t (e :: l) = calls t l.
Proof.
  intros H. simpl. destruct e as [u|t' j|t' b e|t' x|o]; simpl in *; try apply app_nil_r;
    destruct (Nat.eqb_spec t' t); try congruence; apply app_nil_r.
Qed.
Lemma calls_throw t u x l : calls t (EThrow u x :: l) = calls t l.
Proof. simpl. apply app_nil_r. Qed.
Lemma pcok_other t p e l : tag e <> Some t -> pcok t p l -> pcok t p (e :: l).
Proof.
  intros H. pose proof (calls_other _ l H) as Hc.
  assert (Hq : quiet t l -> quiet t (e :: l)).
  { intros Q x [->|Hx]; [apply H; auto|apply (Q x); auto]. }
  assert (Hs : some_calls t l -> some_calls t (e :: l)).
  { unfold some_calls. rewrite Hc. auto. }
  assert (Ha : all_calls t l -> all_calls t (e :: l)).
  { unfold all_calls. rewrite Hc. auto. }
  destruct p; unfold pcok; try rewrite Hc.
  - intuition.
  - intuition.
  - intuition.
  - intuition.
  - intuition.
  - intros [H1 [[H2 H3]|[x H2]]]; split; auto. right; exists x; right; auto.
  - intros [H1 [[H2 H3]|[x H2]]]; split; auto. right; exists x; right; auto.
  - intros [H1 [[H2 H3]|[x H2]]]; split; auto. right; exists x; right; auto.
Qed.

Lemma pcok_range t p l i : pcok t p l -> In i (calls t l) -> fst (sh t) <= i < snd (sh t).
Proof.
  assert (Hs : some_calls t l -> In i (calls t l) -> fst (sh t) <= i < snd (sh t)).
  { intros (k & H1 & H2). rewrite H2, in_seq. lia. }
  destruct p; simpl; intros H; try (apply Hs; tauto).
  - destruct H as [-> _]; simpl; tauto.
  - destruct H as (_ & -> & _); simpl; tauto.
  - destruct H as (_ & H1 & H2 & _ & -> & _). rewrite in_seq. lia.
Qed.

(** the phase in which the agents run *)
Record inv (s : state) : Prop := {
  i_len : length (ag s) = m;
  i_ph : (exists i, ph s = PEnq i /\ i <= m /\
           forall t p, nth_error (ag s) t = Some p -> (p = ANew <-> i <= t)) \/
         (ph s = POver /\ forall t p, nth_error (ag s) t = Some p -> p <> ANew);
  i_pc : forall t p, nth_error (ag s) t = Some p -> pcok t p (log s);
  i_far : forall t, m <= t -> calls t (log s) = [] /\ quiet t (log s);
  i_nodup : NoDup (indices (log s));
  i_fin : Z.of_nat (fin s) = sumz past (ag s);
  i_out : (Z.of_nat (completions (log s)) + sumz lastw (ag s) = if Nat.eqb (fin s) m then 1 else 0)%Z;
  i_top : 0 < completions (log s) -> exists o l, log s = EOut o :: l /\ completions l = 0 /\
          (o = DVal /\ (forall x, ~ threw l x) \/ exists x, o = DErr x /\ threw l x);
  i_thr : forall t x, In (EThrow t x) (log s) ->
          (exists x', nth_error (ag s) t = Some (AThrew t x')) \/ twe s <> m;
  i_twe : twe s <> m -> exc s <> None \/ exists t x, nth_error (ag s) t = Some (AStore x);
  i_exc : forall x, exc s = Some x -> threw (log s) x;
  i_up : In (EUp (UVal None)) (log s) /\ (forall u, In (EUp u) (log s) -> u = UVal None);
  i_nt : nothrow = true -> forall x, ~ threw (log s) x }.

Lemma live_no_out s t p : inv s -> nth_error (ag s) t = Some p -> past p = 0%Z -> completions (log s) = 0 /\ fin s < m.
Proof.
  intros J Ht Hp. destruct J.
  assert (fin s < m).
  { pose proof (sum_le_len (ag s)).
    destruct (Z.eq_dec (sumz past (ag s)) (Z.of_nat (length (ag s)))) as [E|E]; [|lia].
    pose proof (sum_full _ E p). specialize (H0 (nth_error_In _ _ Ht)). lia. }
  destruct (Nat.eqb_spec (fin s) m); [lia|].
  pose proof (sumz_nonneg lastw (ag s) lastw_nn). lia.
Qed.
Lemma lt_m s t p : inv s -> nth_error (ag s) t = Some p -> t < m.
Proof. intros J Ht. rewrite <- (i_len J). apply nth_error_Some. congruence. Qed.

Lemma seq_snoc b k : seq b k ++ [b + k] = seq b (S k).
Proof. rewrite seq_S. auto. Qed.

Lemma seq_nodup_new b k (l : list nat) : NoDup l -> (forall i, b <= i < b + k -> ~ In i l) ->
  NoDup (seq b k ++ l).
Proof.
  revert b. induction k; intros b Hl H; simpl; auto.
  constructor.
  - rewrite in_app_iff, in_seq. intros [?|?]; [lia|]. apply (H b); auto. lia.
  - apply IHk; auto. intros i Hi. apply H. lia.
Qed.

(** an index of t's share that t has not called yet has not been called at all *)
Lemma fresh_index s t p i : inv s -> nth_error (ag s) t = Some p ->
  fst (sh t) <= i < snd (sh t) -> ~ In i (calls t (log s)) -> ~ In i (indices (log s)).
Proof.
  intros J Ht Hi Hn Hin. apply in_indices in Hin. destruct Hin as [u Hu].
  destruct (nth_error (ag s) u) as [q|] eqn:Eu.
  - pose proof (pcok_range _ _ _ _ (i_pc J u Eu) Hu).
    assert (t = u) by (eapply share_unique; eauto using lt_m). subst u. auto.
  - apply nth_error_None in Eu. rewrite (i_len J) in Eu.
    destruct (i_far J Eu) as [E _]. rewrite E in Hu. simpl in Hu. auto.
Qed.

Ltac others H Ht :=
  rewrite (nth_upd _ _ _ _ Ht) in H;
  match type of H with (if ?a =? ?b then _ else _) = _ => destruct (Nat.eqb_spec a b) as [?E|?N]; [subst; inversion H; subst; clear H|] end.

Lemma inv_enq s s' : inv s -> step AEnq s = Some s' -> inv s'.
Proof.
  intros J H. simpl in H. destruct (ph s) as [|i|] eqn:Ep; try discriminate.
  pose proof m_le as Hml.
  destruct (i_ph J) as [(i' & E1 & E2 & E3)|[E1 _]]; rewrite Ep in E1; inversion E1; subst i'.
  destruct (Nat.ltb_spec i m) as [L|L]; inversion H; subst s'; clear H.
  - assert (Ht : exists p, nth_error (ag s) i = Some p).
    { destruct (nth_error (ag s) i) eqn:E; eauto. apply nth_error_None in E. rewrite (i_len J) in E. lia. }
    destruct Ht as [p Ht]. assert (p = ANew) by (apply (E3 i p); auto). subst p.
    destruct J. constructor; simpl; auto.
    + rewrite upd_length; auto.
    + left. exists (S i). split; auto. split; auto.
      intros t p Hp. others Hp Ht; [split; [discriminate|lia]|].
      rewrite (E3 _ _ Hp). lia.
    + intros t p Hp. others Hp Ht; [|auto].
      destruct (i_pc0 _ _ Ht) as [A B]. simpl. rewrite Nat.mod_small by lia. auto.
    + rewrite (@sumz_upd _ past _ _ (AQueued _) _ Ht). simpl. lia.
    + rewrite (@sumz_upd _ lastw _ _ (AQueued _) _ Ht). simpl. lia.
    + intros t x Hx. destruct (i_thr0 _ _ Hx) as [[x' Hx']|]; auto. left. exists x'.
      rewrite (nth_upd _ _ _ _ Ht). destruct (Nat.eqb_spec i t); auto. subst; congruence.
    + intros Hx. destruct (i_twe0 Hx) as [|[t [x Hx']]]; auto. right. exists t, x.
      rewrite (nth_upd _ _ _ _ Ht). destruct (Nat.eqb_spec i t); auto. subst; congruence.
  - destruct J. constructor; simpl; auto. right. split; auto. intros t p Hp.
    assert (t < m) by (rewrite <- i_len0; apply nth_error_Some; congruence).
    intros E. apply (E3 _ _ Hp) in E. lia.
Qed.

(** generic step of agent t from p to q logging the events es *)
Lemma inv_agent s t p q es s' :
  inv s -> nth_error (ag s) t = Some p -> past p = 0%Z -> past q = 0%Z -> p <> ANew -> q <> ANew ->
  (forall e, In e es -> tag e = Some t) ->
  pcok t q (es ++ log s) ->
  NoDup (indices (es ++ log s)) ->
  (forall u x, In (EThrow u x) es -> q = AThrew t x) ->
  (forall x, In (EThrow t x) es -> nothrow = false) ->
  (forall x, p = AThrew t x -> q = AThrew t x \/ twe s' <> m) ->
  (forall x, p = AStore x -> exc s' <> None) ->
  (twe s <> m -> twe s' = twe s) ->
  (twe s' <> twe s -> exists x, q = AStore x) ->
  (exc s' = exc s \/ exists x, exc s' = Some x /\ threw (log s) x) ->
  ph s' = ph s -> ag s' = upd (ag s) t q -> fin s' = fin s -> log s' = es ++ log s ->
  inv s'.
Proof.
  intros J Ht Hp Hq Hpn Hqn Htag Hpc Hnd Hthrow Hnt Hfin Hsto Htw Htw' Hexc Eph Eag Efin Elog.
  destruct (live_no_out _ J Ht Hp) as [Hno Hlt].
  assert (Hlp : lastw p = 0%Z) by (destruct p; simpl in *; auto; lia).
  assert (Hlq : lastw q = 0%Z) by (destruct q; simpl in *; auto; lia).
  assert (Hcomp : completions (es ++ log s) = completions (log s)).
  { unfold completions. rewrite cnt_app. enough (cnt is_out es = 0) by lia.
    apply cnt_zero. intros e He. specialize (Htag e He). destruct e; simpl in *; auto; discriminate. }
  pose proof (lt_m _ J Ht) as Htm.
  destruct J. constructor; rewrite ?Eph, ?Eag, ?Efin, ?Elog.
  - rewrite upd_length; auto.
  - destruct i_ph0 as [(i & A & B & C)|[A B]].
    + left. exists i. split; auto. split; auto. intros u r Hr. others Hr Ht; auto.
      specialize (C _ _ Ht). tauto.
    + right. split; auto. intros u r Hr. others Hr Ht; eauto.
  - intros u r Hr. others Hr Ht; auto. specialize (i_pc0 _ _ Hr).
    clear - Htag i_pc0 N. induction es as [|e es IH]; simpl; auto. apply pcok_other.
    + rewrite (Htag e) by (simpl; auto). congruence.
    + apply IH. intros; apply Htag; simpl; auto.
  - intros u Hu. destruct (i_far0 _ Hu) as [A B].
    assert (N : t <> u) by lia. clear - Htag A B N.
    induction es as [|e es IH]; [auto|].
    destruct IH as [IH1 IH2]; [intros; apply Htag; simpl; auto|]. simpl app.
    rewrite calls_other by (rewrite (Htag e) by (simpl; auto); congruence).
    split; auto. intros x [->|Hx]; [specialize (Htag (EThrow u x)); simpl in Htag; apply N; injection (Htag (or_introl eq_refl)); auto|].
    apply (IH2 x); auto.
  - auto.
  - rewrite (@sumz_upd _ past _ _ q _ Ht). lia.
  - rewrite (@sumz_upd _ lastw _ _ q _ Ht). rewrite Hcomp. lia.
  - rewrite Hcomp. lia.
  - intros u x Hx. apply in_app_iff in Hx. destruct Hx as [Hx|Hx].
    + assert (u = t) by (specialize (Htag _ Hx); simpl in Htag; injection Htag; auto). subst u.
      left. exists x. rewrite (nth_upd_same _ _ _ Ht). f_equal. eauto.
    + destruct (i_thr0 _ _ Hx) as [[x' Hx']|Hx'].
      * rewrite (nth_upd _ _ _ _ Ht). destruct (Nat.eqb_spec t u); [subst u|eauto].
        rewrite Ht in Hx'. injection Hx' as ->. destruct (Hfin _ eq_refl) as [->|]; eauto.
      * right. rewrite Htw; auto.
  - intros Hx. destruct (Nat.eq_dec (twe s') (twe s)) as [E|E].
    + rewrite E in Hx. destruct (i_twe0 Hx) as [A|[u [x A]]].
      * left. destruct Hexc as [->|(x & -> & _)]; auto. discriminate.
      * destruct (Nat.eq_dec t u) as [<-|N].
        -- rewrite Ht in A. injection A as ->. eauto.
        -- right. exists u, x. rewrite (nth_upd _ _ _ _ Ht). destruct (Nat.eqb_spec t u); auto; congruence.
    + destruct (Htw' E) as [x ->]. right. exists t, x. apply (nth_upd_same _ _ _ Ht).
  - intros x Hx. assert (threw (log s) x).
    { destruct Hexc as [E|(y & E & B)]; rewrite E in Hx; [auto|]. injection Hx as ->; auto. }
    destruct H as [u Hu]. exists u. apply in_app_iff; auto.
  - destruct i_up0 as [A B]. split; [apply in_app_iff; auto|].
    intros u Hu. apply in_app_iff in Hu. destruct Hu as [Hu|Hu]; auto. specialize (Htag _ Hu). discriminate.
  - intros Hn x [u Hx]. apply in_app_iff in Hx. destruct Hx as [Hx|Hx]; [|apply (i_nt0 Hn x); exists u; auto].
    assert (u = t) by (specialize (Htag _ Hx); simpl in Htag; injection Htag; auto). subst u.
    rewrite (Hnt _ Hx) in Hn. discriminate.
Qed.

Lemma inv_start s t s' : inv s -> step (AStart t) s = Some s' -> inv s'.
Proof.
  intros J H. simpl in H. destruct (nth_error (ag s) t) as [p|] eqn:Ht; try discriminate.
  destruct p; try discriminate.
  pose proof (i_pc J _ Ht) as (-> & Hc & Hq).
  destruct (sh t) as [b e] eqn:Es. inversion H; subst s'; clear H.
  pose proof (share_ok (lt_m _ J Ht)) as Hb. rewrite Es in Hb. simpl in Hb.
  eapply inv_agent with (t := t) (q := ARun t b e) (es := []) (1 := J) (2 := Ht); simpl; auto; try discriminate; try tauto.
  - rewrite Es. simpl. repeat split; auto; try lia. rewrite Hc, Nat.sub_diag. auto.
  - apply (i_nodup J).
Qed.

Lemma inv_call s t r s' : inv s -> step (ACall t r) s = Some s' -> inv s'.
Proof.
  intros J H. simpl in H. destruct (nth_error (ag s) t) as [p|] eqn:Ht; try discriminate.
  destruct p as [| |tid c e| | | | |]; try discriminate.
  pose proof (i_pc J _ Ht) as (-> & He & Hr & Hch & Hc & Hq).
  pose proof (share_ok (lt_m _ J Ht)) as Hb.
  pose proof (i_nodup J) as Hnd.
  destruct (nothrow && _) eqn:En; try discriminate.
  assert (Hnt : forall x, r = Some x -> nothrow = false).
  { intros x ->. destruct nothrow; auto. }
  assert (Hfr : forall i, c <= i < e -> ~ In i (indices (log s))).
  { intros i Hi. eapply fresh_index; eauto; [lia|]. rewrite Hc, in_seq. lia. }
  destruct chunked eqn:Ech.
  - rewrite (Hch eq_refl) in *. clear Hch Hr. rewrite Nat.sub_diag in Hc. simpl in Hc.
    assert (Hcs : calls t (EChunk t (fst (sh t)) e :: log s) = seq (fst (sh t)) (e - fst (sh t))).
    { simpl. rewrite Nat.eqb_refl, Hc. auto. }
    assert (Hnd' : NoDup (indices (EChunk t (fst (sh t)) e :: log s))).
    { unfold indices. simpl. apply seq_nodup_new; auto. intros i Hi. apply Hfr. lia. }
    destruct r as [x|]; inversion H; subst s'; clear H.
    + eapply inv_agent with (t := t) (q := AThrew t x) (es := [EThrow t x; EChunk t (fst (sh t)) e]) (1 := J) (2 := Ht);
        simpl; auto; try discriminate; try tauto.
      * intros y [<- | [<- | []]]; auto.
      * split; auto. split; auto. exists (e - fst (sh t)). rewrite calls_throw, Hcs. split; [lia|auto].
      * intros u y [E|[E|[]]]; inversion E; auto.
      * intros y _. eauto.
    + eapply inv_agent with (t := t) (q := AFin) (es := [EChunk t (fst (sh t)) e]) (1 := J) (2 := Ht);
        simpl; auto; try discriminate; try tauto.
      * intros y [<- | []]; auto.
      * split.
        -- exists (e - fst (sh t)). rewrite Hcs. split; [lia|auto].
        -- left. split; [unfold all_calls; rewrite Hcs, He; auto|]. intros x [E|Hx]; [discriminate|]. apply (Hq x); auto.
      * intros u y [E|[]]; discriminate.
      * intros y [E|[]]; discriminate.
  - destruct (Nat.eqb_spec c e) as [E|E].
    + inversion H; subst s'; clear H.
      eapply inv_agent with (t := t) (q := AFin) (es := []) (1 := J) (2 := Ht); simpl; auto; try discriminate; try tauto.
      split; [exists (c - fst (sh t)); split; [lia|auto]|]. left. split; auto. unfold all_calls. rewrite Hc. f_equal. lia.
    + assert (Hcs : calls t (ECall t c :: log s) = seq (fst (sh t)) (S c - fst (sh t))).
      { cbn [calls idx_of]. rewrite Nat.eqb_refl, Hc. replace (S c - fst (sh t)) with (S (c - fst (sh t))) by lia.
        rewrite <- seq_snoc. f_equal. f_equal. lia. }
      assert (Hnd' : NoDup (indices (ECall t c :: log s))).
      { unfold indices. simpl. constructor; auto. apply Hfr. lia. }
      destruct r as [x|]; inversion H; subst s'; clear H.
      * eapply inv_agent with (t := t) (q := AThrew t x) (es := [EThrow t x; ECall t c]) (1 := J) (2 := Ht);
          simpl; auto; try discriminate; try tauto.
        -- intros y [<- | [<- | []]]; auto.
        -- split; auto. split; auto. exists (S c - fst (sh t)). rewrite calls_throw, Hcs. split; [lia|auto].
        -- intros u y [E'|[E'|[]]]; inversion E'; auto.
        -- intros y _. eauto.
      * eapply inv_agent with (t := t) (q := ARun t (S c) e) (es := [ECall t c]) (1 := J) (2 := Ht);
          simpl; auto; try discriminate; try tauto.
        -- intros y [<- | []]; auto.
        -- simpl in Hcs. rewrite Hcs. repeat split; auto; try lia; try congruence.
           intros x [E'|Hx]; [discriminate|]. apply (Hq x); auto.
        -- intros u y [E'|[]]; discriminate.
        -- intros y [E'|[]]; discriminate.
Qed.

Lemma inv_go s t s' : inv s -> step (AGo t) s = Some s' -> inv s'.
Proof.
  intros J H. simpl in H. destruct (nth_error (ag s) t) as [p|] eqn:Ht; try discriminate.
  pose proof (i_pc J _ Ht) as Hpc. pose proof (lt_m _ J Ht) as Htm. pose proof (i_nodup J) as Hnd.
  destruct p as [| | |tid x|x| | |]; try discriminate.
  - destruct Hpc as (-> & Hin & Hs). destruct (Nat.eqb_spec (twe s) m) as [E|E]; inversion H; subst s'; clear H.
    + eapply inv_agent with (t := t) (q := AStore x) (es := []) (1 := J) (2 := Ht); simpl; auto; try discriminate; try tauto.
      * intros y _. right. lia.
      * intros _. eauto.
    + eapply inv_agent with (t := t) (q := AFin) (es := []) (1 := J) (2 := Ht); simpl; auto; try discriminate; try tauto.
      split; auto. right; eauto.
  - destruct Hpc as (Hin & Hs). inversion H; subst s'; clear H.
    eapply inv_agent with (t := t) (q := AFin) (es := []) (1 := J) (2 := Ht); simpl; auto; try discriminate; try tauto.
    + split; auto. right; eauto.
    + right. exists x. split; auto. exists t; auto.
  - inversion H; subst s'; clear H.
    destruct (live_no_out _ J Ht eq_refl) as [Hno Hlt].
    remember (if S (fin s) =? m then ALast else ADone) as q eqn:Eqq.
    assert (Hq : q = ALast \/ q = ADone) by (rewrite Eqq; destruct (S (fin s) =? m); auto).
    assert (Hqp : past q = 1%Z) by (destruct Hq as [-> | ->]; auto).
    assert (Hqn : q <> ANew) by (destruct Hq as [-> | ->]; discriminate).
    destruct J. constructor; simpl; auto.
    + rewrite upd_length; auto.
    + destruct i_ph0 as [(i & A & B & C)|[A B]].
      * left. exists i. split; auto. split; auto. intros u r Hr. others Hr Ht; auto.
        specialize (C _ _ Ht). split; [tauto|]. intros Z0. apply C in Z0. discriminate.
      * right. split; auto. intros u r Hr. others Hr Ht; eauto.
    + intros u r Hr. others Hr Ht; auto. destruct Hq as [-> | ->]; auto.
    + rewrite (@sumz_upd _ past _ _ q _ Ht). simpl past. lia.
    + rewrite (@sumz_upd _ lastw _ _ q _ Ht). rewrite Hno in *. simpl lastw.
      destruct (Nat.eqb_spec (fin s) m); [lia|]. rewrite Eqq.
      destruct (Nat.eqb_spec (S (fin s)) m); simpl lastw; lia.
    + intros u x Hx. destruct (i_thr0 _ _ Hx) as [[x' Hx']|]; auto. left. exists x'.
      rewrite (nth_upd _ _ _ _ Ht). destruct (Nat.eqb_spec t u); auto. subst; congruence.
    + intros Hx. destruct (i_twe0 Hx) as [|[u [x Hx']]]; auto. right. exists u, x.
      rewrite (nth_upd _ _ _ _ Ht). destruct (Nat.eqb_spec t u); auto. subst; congruence.
  - inversion H; subst s'; clear H.
    assert (Hone : (1 <= sumz lastw (ag s))%Z) by (change 1%Z with (lastw ALast); eapply sumz_ge; eauto using lastw_nn).
    pose proof (i_out J) as Ho. destruct (Nat.eqb_spec (fin s) m) as [Ef|]; [|lia].
    assert (Hc0 : completions (log s) = 0) by lia.
    assert (Hall : forall u r, nth_error (ag s) u = Some r -> past r = 1%Z).
    { intros u r Hr. eapply sum_full; [|eapply nth_error_In; eauto]. rewrite <- (i_fin J), (i_len J), Ef. auto. }
    set (o := match exc s with Some x => DErr x | None => DVal end).
    assert (Hoo : o = DVal /\ (forall x, ~ threw (log s) x) \/ exists x, o = DErr x /\ threw (log s) x).
    { unfold o. destruct (exc s) as [x|] eqn:Ex.
      - right. exists x. split; auto. apply (i_exc J); auto.
      - left. split; auto. intros x [u Hu].
        destruct (i_thr J _ _ Hu) as [[x' Hx']|Hx'].
        + apply Hall in Hx'. discriminate.
        + destruct (i_twe J Hx') as [A|[u' [x' A]]]; [congruence|]. apply Hall in A. discriminate. }
    destruct J. constructor; simpl; auto.
    + rewrite upd_length; auto.
    + destruct i_ph0 as [(i & A & B & C)|[A B]].
      * left. exists i. split; auto. split; auto. intros u r Hr. others Hr Ht; auto.
        specialize (C _ _ Ht). split; [discriminate|]. intros Z0. apply C in Z0. discriminate.
      * right. split; auto. intros u r Hr. others Hr Ht; eauto. discriminate.
    + intros u r Hr. others Hr Ht.
      * apply pcok_other; [discriminate|auto].
      * apply pcok_other; [discriminate|auto].
    + intros u Hu. destruct (i_far0 _ Hu) as [A B]. rewrite app_nil_r. split; auto.
      intros x [E|Hx]; [discriminate|apply (B x); auto].
    + rewrite (@sumz_upd _ past _ _ ADone _ Ht). simpl past. lia.
    + rewrite (@sumz_upd _ lastw _ _ ADone _ Ht). simpl lastw.
      destruct (Nat.eqb_spec (fin s) m); [|lia]. unfold completions in *. simpl. lia.
    + intros _. exists o, (log s). auto.
    + intros u x [E|Hx]; [discriminate|]. destruct (i_thr0 _ _ Hx) as [[x' Hx']|]; auto. left. exists x'.
      rewrite (nth_upd _ _ _ _ Ht). destruct (Nat.eqb_spec t u); auto. subst; congruence.
    + intros Hx. destruct (i_twe0 Hx) as [|[u [x Hx']]]; auto. right. exists u, x.
      rewrite (nth_upd _ _ _ _ Ht). destruct (Nat.eqb_spec t u); auto. subst; congruence.
    + intros x Hx. destruct (i_exc0 _ Hx) as [u Hu]. exists u. right; auto.
    + destruct i_up0 as [A B]. split; auto. intros u [E|Hu]; [discriminate|auto].
    + intros Hn x [u [E|Hu]]; [discriminate|]. apply (i_nt0 Hn x). exists u; auto.
Qed.

Lemma nth_repeat_new i k p : nth_error (repeat ANew k) i = Some p -> p = ANew.
Proof. apply nth_repeat_some. Qed.

Lemma inv_begin : inv (ev (w_ph (init shape threads parallelize) (PEnq 0)) (EUp (UVal None))).
Proof.
  pose proof m_pos as Hm.
  constructor; simpl.
  - apply repeat_length.
  - left. exists 0. split; auto. split; [lia|]. intros t p H. apply nth_repeat_new in H. subst. split; auto; lia.
  - intros t p H. apply nth_repeat_new in H. subst. split; auto. intros x [E|[]]; discriminate.
  - intros t Ht. split; auto. intros x [E|[]]; discriminate.
  - constructor.
  - rewrite sumz_repeat; auto.
  - rewrite sumz_repeat; auto. destruct m; [lia|]. reflexivity.
  - unfold completions; simpl; lia.
  - intros t x [E|[]]; discriminate.
  - lia.
  - discriminate.
  - split; auto. intros u [E|[]]. congruence.
  - intros _ x [t [E|[]]]. discriminate.
Qed.
End Params.

(** the three phases of an execution *)
Definition immediate (shape : nat) (u : up) (o : out) : Prop :=
  match u with
  | UVal None => shape = 0 /\ o = DVal
  | UVal (Some e) | UErr e => o = DErr e
  | UStop => o = DStop
  end.

Section Phases.
Variable shape threads : nat.
Variable parallelize chunked nothrow : bool.
Notation m := (num_agents shape threads parallelize).
Notation step := (step shape threads parallelize chunked nothrow).
Notation reachable := (reachable shape threads parallelize chunked nothrow).
Notation inv := (inv shape threads parallelize chunked nothrow).
Notation init := (init shape threads parallelize).

Lemma phases s : reachable s -> 0 < threads /\ (N.of_nat shape < word)%N /\
  (s = init \/
   (exists u o, s = ev (ev (w_ph init POver) (EUp u)) (EOut o) /\ immediate shape u o) \/
   (0 < shape /\ inv s)).
Proof.
  induction 1 as [Ht Hw|s a s' R IH Hs].
  - auto.
  - destruct IH as (Ht & Hw & IH). split; auto. split; auto.
    assert (Hnew : forall t p, nth_error (repeat ANew m) t = Some p -> p = ANew) by (intros; eapply nth_repeat_some; eauto).
    destruct IH as [-> |[(u & o & -> & Hi)|[Hsh J]]].
    + destruct a as [u| |t|t r|t]; simpl in Hs; try discriminate.
      * destruct u as [[e|]|e|]; try (injection Hs as <-; right; left; eexists _, _; split; [reflexivity|reflexivity]).
        destruct (Nat.eqb_spec shape 0).
        -- injection Hs as <-; right; left; eexists _, _; split; [reflexivity|split; auto].
        -- injection Hs as <-. right; right. split; [lia|]. apply inv_begin; auto. lia.
      * destruct (nth_error _ t) eqn:E; try discriminate. apply Hnew in E. subst; discriminate.
      * destruct (nth_error _ t) eqn:E; try discriminate. apply Hnew in E. subst; discriminate.
      * destruct (nth_error _ t) eqn:E; try discriminate. apply Hnew in E. subst; discriminate.
    + destruct a as [v| |t|t r|t]; simpl in Hs; try discriminate;
        (destruct (nth_error _ t) eqn:E; try discriminate; apply Hnew in E; subst; discriminate).
    + right; right. split; auto. destruct a as [u| |t|t r|t].
      * exfalso. simpl in Hs. destruct (i_ph J) as [(i & A & _)|[A _]]; rewrite A in Hs; discriminate.
      * eapply inv_enq; eauto.
      * eapply inv_start; eauto.
      * eapply inv_call; eauto.
      * eapply inv_go; eauto.
Qed.
End Phases.

Section Theorems.
Variable shape threads : nat.
Variable parallelize chunked nothrow : bool.
Notation m := (num_agents shape threads parallelize).
Notation step := (step shape threads parallelize chunked nothrow).
Notation reachable := (reachable shape threads parallelize chunked nothrow).

(** in every execution no index is used twice, and only indices below the shape are used *)
Theorem C37_pool_no_index_twice s : reachable s ->
  NoDup (indices (log s)) /\ forall i, In i (indices (log s)) -> i < shape.
Proof.
  intros R. destruct (phases R) as (Ht & Hw & [-> |[(u & o & -> & _)|[Hs J]]]).
  - simpl. split; [constructor|tauto].
  - simpl. split; [constructor|tauto].
  - split; [apply (i_nodup J)|]. intros i Hi. apply in_indices in Hi. destruct Hi as [t Hi].
    destruct (nth_error (ag s) t) as [p|] eqn:E.
    + assert (fst (share shape t m) <= i < snd (share shape t m))
        by (eapply pcok_range; eauto; eapply (i_pc J); eauto).
      assert (t < m) by (eapply lt_m; eauto).
      pose proof (@share_ok shape threads parallelize Ht Hw Hs t H0). lia.
    + apply nth_error_None in E. rewrite (i_len J) in E. destruct (i_far J E) as [E' _]. rewrite E' in Hi.
      simpl in Hi. tauto.
Qed.

(** the receiver is completed at most once, and its completion is the last thing that happens:
    every call of the function has returned or thrown by then, and every agent is done *)
Theorem C37_pool_completes_once s o : reachable s -> In (EOut o) (log s) ->
  (exists l, log s = EOut o :: l /\ completions l = 0) /\
  (forall a s', step a s = Some s' -> log s' = log s) /\
  ((forall t p, nth_error (ag s) t = Some p -> p = ADone) \/ indices (log s) = []).
Proof.
  intros R Ho. destruct (phases R) as (Ht & Hw & [-> |[(u & o' & -> & _)|[Hs J]]]).
  - destruct Ho.
  - simpl in *. destruct Ho as [Ho|[Ho|[]]]; [|discriminate].
    injection Ho as ->. split; [|split]; auto.
    + exists [EUp u]. auto.
    + intros a s' H. destruct a as [v| |t|t r|t]; simpl in H; try discriminate;
        destruct (nth_error _ t) eqn:E; try discriminate; apply nth_repeat_some in E; subst; discriminate.
  - assert (Hc : 0 < completions (log s)) by (apply cnt_pos; exists (EOut o); auto).
    assert (Hd : forall t p, nth_error (ag s) t = Some p -> p = ADone).
    { intros t p E.
      assert (Hp : past p <> 0%Z) by (intros Z0; destruct (live_no_out Ht Hw Hs _ J E Z0); lia).
      destruct p; auto; try (exfalso; apply Hp; reflexivity).
      pose proof (@sumz_ge _ lastw (ag s) lastw_nn _ _ E) as Hge. simpl in Hge.
      pose proof (i_out J). destruct (fin s =? m); lia. }
    split; [|split]; auto.
    + destruct (i_top J Hc) as (o' & l & El & Hl & _). exists l. split; auto. rewrite El in Ho.
      destruct Ho as [Ho|Ho]; [congruence|]. exfalso.
      assert (0 < completions l) by (apply cnt_pos; exists (EOut o); auto). lia.
    + intros a s' H. destruct a as [v| |t|t r|t]; simpl in H.
      * destruct (i_ph J) as [(i & A & _)|[A _]]; rewrite A in H; discriminate.
      * destruct (ph s); try discriminate. destruct (_ <? _); injection H as <-; auto.
      * destruct (nth_error _ t) eqn:E; try discriminate. apply Hd in E. subst; discriminate.
      * destruct (nth_error _ t) eqn:E; try discriminate. apply Hd in E. subst; discriminate.
      * destruct (nth_error _ t) eqn:E; try discriminate. apply Hd in E. subst; discriminate.
Qed.

(** set_value: no call threw and the function has been called for every index below the shape,
    exactly once *)
Theorem C37_pool_success s : reachable s -> In (EOut DVal) (log s) ->
  In (EUp (UVal None)) (log s) /\ (forall x, ~ threw (log s) x) /\ Permutation (indices (log s)) (seq 0 shape).
Proof.
  intros R Ho. destruct (C37_pool_no_index_twice R) as [Hnd Hlt].
  destruct (C37_pool_completes_once _ R Ho) as (_ & _ & Hd).
  destruct (phases R) as (Ht & Hw & [-> |[(u & o' & -> & Hi)|[Hs J]]]).
  - destruct Ho.
  - simpl in *. destruct Ho as [Ho|[Ho|[]]]; [|discriminate]. injection Ho as ->.
    destruct u as [[e|]|e|]; simpl in Hi; try discriminate. destruct Hi as [-> _].
    split; auto. split; [intros x [t [E|[E|[]]]]; discriminate|]. constructor.
  - assert (Hc : 0 < completions (log s)) by (apply cnt_pos; exists (EOut DVal); auto).
    destruct (i_top J Hc) as (o' & l & El & Hl & Ho').
    rewrite El in Ho. destruct Ho as [Ho|Ho].
    2:{ assert (0 < completions l) by (apply cnt_pos; exists (EOut DVal); auto). lia. }
    injection Ho as ->. destruct Ho' as [[_ Ho']|(x & E & _)]; [|discriminate].
    assert (Hq : forall x, ~ threw (log s) x).
    { intros x [t Hx]. rewrite El in Hx. destruct Hx as [Hx|Hx]; [discriminate|]. apply (Ho' x). exists t; auto. }
    destruct (i_up J) as [Hup _]. split; auto. split; auto.
    apply NoDup_Permutation; auto using seq_NoDup.
    intros i. rewrite in_seq. split; [intros H; apply Hlt in H; lia|]. intros Hi.
    destruct (@share_cover shape threads parallelize Ht Hw Hs i) as (t & Htm & Hit); [lia|].
    apply in_indices. exists t.
    assert (exists p, nth_error (ag s) t = Some p) as [p Hp].
    { destruct (nth_error (ag s) t) eqn:E; eauto. apply nth_error_None in E. rewrite (i_len J) in E. lia. }
    destruct Hd as [Hd|Hd].
    + pose proof (Hd _ _ Hp). subst p. destruct (i_pc J _ Hp) as [_ [[H _]|[x H]]].
      * unfold all_calls in H. rewrite H, in_seq. lia.
      * exfalso. apply (Hq x). exists t; auto.
    + pose proof (i_pc J _ Hp) as Hpc.
      assert (Hz : forall j u, ~ In j (calls u (log s))).
      { intros j u Hu. assert (In j (indices (log s))) by (apply in_indices; eauto). rewrite Hd in H. auto. }
      exfalso.
      assert (Hp' : past p <> 0%Z) by (intros Z0; destruct (live_no_out Ht Hw Hs _ J Hp Z0); lia).
      destruct p; simpl in Hp'; try tauto; destruct Hpc as [_ [[H _]|[x H]]];
        try (apply (Hq x); exists t; exact H);
        apply (Hz i t); unfold all_calls in H; rewrite H, in_seq; lia.
Qed.

(** set_error: the error is one thrown by the function, or the predecessor's, or the exception of
    storing its values; and if a call threw, the completion is such an error *)
Theorem C37_pool_error s o : reachable s -> In (EOut o) (log s) ->
  (forall e, o = DErr e -> threw (log s) e \/ In (EUp (UErr e)) (log s) \/ In (EUp (UVal (Some e))) (log s)) /\
  (forall x, threw (log s) x -> exists e, o = DErr e /\ threw (log s) e) /\
  (o = DStop -> In (EUp UStop) (log s)).
Proof.
  intros R Ho. destruct (C37_pool_completes_once _ R Ho) as ((l & El & Hl) & _ & _).
  destruct (phases R) as (Ht & Hw & [-> |[(u & o' & -> & Hi)|[Hs J]]]).
  - destruct Ho.
  - simpl in *. destruct Ho as [Ho|[Ho|[]]]; [|discriminate]. injection Ho as ->.
    split; [|split].
    + intros e ->. destruct u as [[e'|]|e'|]; simpl in Hi; try (destruct Hi; discriminate); try discriminate; injection Hi as ->; auto.
    + intros x [t [E|[E|[]]]]; discriminate.
    + intros ->. destruct u as [[e'|]|e'|]; simpl in Hi; try (destruct Hi; discriminate); try discriminate; auto.
  - assert (Hc : 0 < completions (log s)) by (apply cnt_pos; exists (EOut o); auto).
    destruct (i_top J Hc) as (o' & l' & El' & Hl' & Ho').
    rewrite El in El'. injection El' as <- <-.
    assert (Hth : forall x, threw l x <-> threw (log s) x).
    { intros x. rewrite El. split; intros [t Hx]; exists t; [right; auto|]. destruct Hx as [E|Hx]; [discriminate|auto]. }
    destruct Ho' as [[-> Ho']|(x & -> & Hx)].
    + split; [discriminate|]. split; [|discriminate]. intros x Hx. apply Hth in Hx. destruct (Ho' x Hx).
    + split; [|split; [|discriminate]].
      * intros e E. injection E as <-. left. apply Hth; auto.
      * intros y _. exists x. split; auto. apply Hth; auto.
Qed.

(** no execution gets stuck: once the predecessor has completed, either the receiver has been
    completed or the enqueuing loop or an agent can go on (calls of the function return or throw) *)
Theorem C37_pool_no_deadlock s : reachable s -> ph s <> PWait ->
  (exists o, In (EOut o) (log s)) \/ exists a s', step a s = Some s' /\ match a with AUp _ => False | _ => True end.
Proof.
  intros R Hph. destruct (phases R) as (Ht & Hw & [-> |[(u & o' & -> & Hi)|[Hs J]]]).
  - exfalso; apply Hph; reflexivity.
  - left. exists o'. simpl. auto.
  - destruct (i_ph J) as [(i & A & _)|[A B]].
    + right. destruct (i <? m) eqn:E; eexists AEnq, _; split; simpl; auto; rewrite A, E; reflexivity.
    + destruct (Nat.eq_dec (completions (log s)) 0) as [E|E].
      2:{ left. assert (0 < completions (log s)) by lia. apply cnt_pos in H. destruct H as [e [H1 H2]].
          destruct e; try discriminate. eauto. }
      right.
      assert (Hgo : exists t p, nth_error (ag s) t = Some p /\ p <> ADone).
      { pose proof (i_out J) as Ho. rewrite E in Ho. destruct (Nat.eqb_spec (fin s) m) as [F|F].
        - destruct (@sumz_pos_ex _ lastw (ag s)) as (t & p & H1 & H2); [lia|]. exists t, p. split; auto.
          intros ->. simpl in H2. lia.
        - destruct (existsb (fun p => match p with ADone => false | _ => true end) (ag s)) eqn:Ex.
          + apply existsb_exists in Ex. destruct Ex as (p & H1 & H2). apply In_nth_error in H1. destruct H1 as [t H1].
            exists t, p. split; auto. intros ->. discriminate.
          + exfalso. apply F. apply Nat2Z.inj. rewrite (i_fin J), <- (i_len J).
            assert (Hall : forall p, In p (ag s) -> p = ADone).
            { intros p Hp. destruct p; auto; exfalso;
              match type of Hp with In ?q _ => enough (false = true) by discriminate; rewrite <- Ex; apply existsb_exists; exists q; split; auto end. }
            clear - Hall. induction (ag s) as [|p l IH]; [reflexivity|]. simpl length. simpl sumz.
            rewrite (Hall p) by (left; auto). rewrite IH by (intros; apply Hall; right; auto). simpl past. lia. }
      destruct Hgo as (t & p & Hp & Hn). pose proof (B _ _ Hp) as Hn'.
      destruct p as [|q|tid c e|tid x|x| | |]; try congruence.
      * destruct (share shape q m) as [b e] eqn:Es. exists (AStart t). cbn [PoolBulkModel.step]. rewrite Hp, Es. eexists; auto.
      * exists (ACall t None). simpl. rewrite Hp. rewrite andb_false_r.
        destruct chunked; [eexists; auto|]. destruct (c =? e); eexists; auto.
      * exists (AGo t). simpl. rewrite Hp. destruct (twe s =? m); eexists; auto.
      * exists (AGo t). simpl. rewrite Hp. eexists; auto.
      * exists (AGo t). simpl. rewrite Hp. eexists; auto.
      * exists (AGo t). simpl. rewrite Hp. eexists; auto.
Qed.
End Theorems.

(** ** Concrete executions: 5 indices on 2 threads *)
Fixpoint runs sh th p c n (l : list action) (s : state) : option state :=
  match l with
  | [] => Some s
  | a :: l => match step sh th p c n a s with Some s' => runs sh th p c n l s' | None => None end
  end.
Lemma runs_reachable sh th p c n l : forall s s', reachable sh th p c n s -> runs sh th p c n l s = Some s' -> reachable sh th p c n s'.
Proof.
  induction l as [|a l IH]; simpl; intros s s' R H; [injection H as <-; auto|].
  destruct (step sh th p c n a s) eqn:E; [|discriminate]. eapply IH; [|eauto]. eapply r_step; eauto.
Qed.

(** the two agents interleaved; success *)
Definition ex_ok : list action :=
  [AUp (UVal None); AEnq; AEnq; AStart 1; ACall 1 None; AStart 0; ACall 0 None; ACall 0 None; ACall 1 None;
   ACall 1 None; AGo 1; ACall 0 None; ACall 0 None; AGo 0; AGo 0].
Example C37_example_success :
  option_map log (runs 5 2 true false false ex_ok (init 5 2 true)) =
  Some [EOut DVal; ECall 0 2; ECall 1 4; ECall 0 1; ECall 0 0; ECall 1 3; EUp (UVal None)].
Proof. vm_compute. reflexivity. Qed.
Example C37_example_reachable : exists s, reachable 5 2 true false false s /\ In (EOut DVal) (log s).
Proof.
  destruct (runs 5 2 true false false ex_ok (init 5 2 true)) as [s|] eqn:E; [|vm_compute in E; discriminate].
  exists s. split.
  - eapply runs_reachable; [|exact E]. constructor; [lia|vm_compute; reflexivity].
  - pose proof C37_example_success as H. rewrite E in H. simpl in H. injection H as ->. left; auto.
Qed.
(** both agents throw: the first to exchange thread_with_exception_ wins *)
Example C37_example_error :
  option_map log (runs 5 2 true false false
    [AUp (UVal None); AEnq; AEnq; AStart 0; AStart 1; ACall 0 (Some 7); ACall 1 None; ACall 1 (Some 8);
     AGo 1; AGo 0; AGo 1; AGo 1; AGo 0; AGo 0] (init 5 2 true)) =
  Some [EOut (DErr 8); EThrow 1 8; ECall 1 4; ECall 1 3; EThrow 0 7; ECall 0 0; EUp (UVal None)].
Proof. vm_compute. reflexivity. Qed.
(** chunked *)
Example C37_example_chunked :
  option_map log (runs 5 2 true true true
    [AUp (UVal None); AEnq; AEnq; AStart 0; AStart 1; ACall 1 None; ACall 0 None; AGo 1; AGo 0; AGo 0] (init 5 2 true)) =
  Some [EOut DVal; EChunk 0 0 3; EChunk 1 3 5; EUp (UVal None)].
Proof. vm_compute. reflexivity. Qed.

Print Assumptions C37_pool_no_index_twice.
Print Assumptions C37_pool_completes_once.
Print Assumptions C37_pool_success.
Print Assumptions C37_pool_error.
Print Assumptions C37_pool_no_deadlock.
