(** * ScopeProofs: the packed word is the state machine of the specification; inductive invariant. *)
From Coq Require Import List Arith Bool Lia ZArith NArith.
From Verif Require Import Conc QueueModel QueueSpec QueueProofs ScopeModel ScopeSpec.
Import ListNotations.
Set Implicit Arguments.
Arguments N.mul : simpl never.
Arguments N.add : simpl never.
Arguments N.sub : simpl never.
Arguments Z.add : simpl never.
Arguments Z.sub : simpl never.
Arguments Z.of_N : simpl never.

(** ** the packed word *)
Definition code (st : sstate) : N :=
  match st with unused => 0 | open => 2 | closed => 3 | open_joining => 6 | closed_joining => 7
              | unused_closed => 1 | joined => 1 end.
Definition enc (st : sstate) (c : N) : N := (8 * c + code st)%N.

Lemma split8 b : b = (8 * N.shiftr b 3 + N.land b 7)%N.
Proof.
  change 7%N with (N.ones 3). rewrite N.land_ones, N.shiftr_div_pow2. change (2 ^ 3)%N with 8%N.
  apply N.div_mod. lia.
Qed.
Lemma shiftr8 c s : (s < 8)%N -> N.shiftr (8 * c + s) 3 = c.
Proof.
  intros H. rewrite N.shiftr_div_pow2. change (2 ^ 3)%N with 8%N. symmetry. apply N.div_unique with (r := s); lia.
Qed.
Lemma land7 c s : (s < 8)%N -> N.land (8 * c + s) 7 = s.
Proof.
  intros H. change 7%N with (N.ones 3). rewrite N.land_ones. change (2 ^ 3)%N with 8%N.
  symmetry. apply N.mod_unique with (q := c); lia.
Qed.
Lemma land_low c s k : (s < 8)%N -> (N.land 7 k = k)%N -> N.land (8 * c + s) k = N.land s k.
Proof.
  intros H K. rewrite <- K at 1. rewrite N.land_assoc, land7 by auto. reflexivity.
Qed.
Lemma lor_low c s k : (s < 8)%N -> (k < 8)%N -> (N.lor s k < 8)%N -> N.lor (8 * c + s) k = (8 * c + N.lor s k)%N.
Proof.
  intros H K L. rewrite (split8 (N.lor (8 * c + s) k)). rewrite N.shiftr_lor, shiftr8 by auto.
  rewrite N.land_lor_distr_l, land7 by auto.
  assert (N.shiftr k 3 = 0%N) as ->. { rewrite N.shiftr_div_pow2. apply N.div_small. exact K. }
  assert (N.land k 7 = k) as ->.
  { change 7%N with (N.ones 3). rewrite N.land_ones. apply N.mod_small. exact K. }
  rewrite N.lor_0_r. reflexivity.
Qed.
Lemma make_bits_eq c s : (s < 8)%N -> make_bits c s = (8 * c + s)%N.
Proof.
  intros H. unfold make_bits, state_of. pose proof (land7 0 H) as E. rewrite N.mul_0_r, N.add_0_l in E. rewrite E.
  rewrite N.shiftl_mul_pow2. change (2 ^ 3)%N with 8%N. rewrite (N.mul_comm c).
  rewrite <- (N.add_0_r (8 * c)) at 1. rewrite lor_low; auto; try lia.
Qed.

Lemma code_lt st : (code st < 8)%N.
Proof. destruct st; simpl; lia. Qed.
Lemma count_enc st c : count (enc st c) = c.
Proof. unfold count, enc. apply shiftr8, code_lt. Qed.
Lemma state_enc st c : state_of (enc st c) = code st.
Proof. unfold state_of, enc. apply land7, code_lt. Qed.
Definition sclosed st := match st with closed | closed_joining | unused_closed | joined => true | _ => false end.
Definition sjoining st := match st with open_joining | closed_joining => true | _ => false end.
Definition sidle st := match st with unused | unused_closed | joined => true | _ => false end.
Lemma closed_enc st c : is_closed (enc st c) = sclosed st.
Proof. unfold is_closed, is_open, enc. rewrite land_low by (auto using code_lt). destruct st; reflexivity. Qed.
Lemma joining_enc st c : is_joining (enc st c) = sjoining st.
Proof. unfold is_joining, enc. rewrite land_low by (auto using code_lt). destruct st; reflexivity. Qed.
Lemma needed_enc st c : is_join_needed (enc st c) = negb (sidle st).
Proof. unfold is_join_needed, is_unused, enc. rewrite land_low by (auto using code_lt). destruct st; reflexivity. Qed.

Definition valid (st : sstate) (c : N) : Prop :=
  (sidle st = true -> c = 0%N) /\ (sjoining st = true -> 0 < c)%N /\ (c <= max_associations)%N.

Lemma joined_enc st c : is_joined (enc st c) = (c =? 0)%N && (code st =? 1)%N.
Proof.
  unfold is_joined, c_closed, enc. pose proof (code_lt st).
  destruct (N.eqb_spec (8 * c + code st) 1), (N.eqb_spec c 0), (N.eqb_spec (code st) 1); simpl; auto; lia.
Qed.
Lemma destructible_enc st c : destructible (enc st c) = (c =? 0)%N && sidle st.
Proof.
  unfold destructible.
  assert (E : N.ldiff (enc st c) c_closed = (8 * c + N.ldiff (code st) 1)%N).
  { unfold enc. rewrite (split8 (N.ldiff (8 * c + code st) c_closed)).
    rewrite N.shiftr_ldiff, shiftr8 by apply code_lt. change (N.shiftr c_closed 3) with 0%N. rewrite N.ldiff_0_r. f_equal.
    assert (L : forall a b, N.land (N.ldiff a b) 7 = N.ldiff (N.land a 7) b).
    { intros a b. apply N.bits_inj. intros k. rewrite N.land_spec, !N.ldiff_spec, N.land_spec.
      destruct (N.testbit a k), (N.testbit b k), (N.testbit 7 k); reflexivity. }
    rewrite L, land7 by apply code_lt. reflexivity. }
  rewrite E.
  destruct (N.eqb_spec c 0) as [->|N]; simpl.
  - destruct st; reflexivity.
  - apply N.eqb_neq. lia.
Qed.
Lemma enc_inj_c st c st' c' : enc st c = enc st' c' -> c = c' /\ code st = code st'.
Proof. unfold enc. pose proof (code_lt st). pose proof (code_lt st'). lia. Qed.

Lemma ta_enc st c x : spec_step (EAssoc 0) (st, c) = Some x -> ta_new (enc st c) = enc (fst x) (snd x).
Proof.
  unfold ta_new. rewrite count_enc, state_enc. simpl. destruct (c =? max_associations)%N; [discriminate|].
  destruct st; intros E; inversion E; subst; simpl; rewrite make_bits_eq by reflexivity; reflexivity.
Qed.
Lemma da_enc st c x : spec_step (EDis 0) (st, c) = Some x -> da_new (enc st c) = enc (fst x) (snd x).
Proof.
  unfold da_new. rewrite count_enc, state_enc, joining_enc. simpl.
  destruct (N.eqb_spec c 0); [discriminate|].
  destruct st; intros E; inversion E; subst; simpl; rewrite ?andb_false_r, ?andb_true_r;
    try (rewrite make_bits_eq by reflexivity; reflexivity);
    destruct (N.eqb_spec c 1) as [->|]; simpl; try reflexivity;
    (destruct (N.eqb_spec (c - 1) 0); [lia|]); rewrite make_bits_eq by reflexivity; reflexivity.
Qed.
Lemma close_enc st c x : spec_step (EClose 0) (st, c) = Some x -> N.lor (enc st c) c_closed = enc (fst x) (snd x).
Proof. simpl. unfold enc, c_closed. intros E; inversion E; subst. destruct st; simpl; rewrite lor_low by reflexivity; reflexivity. Qed.
Lemma join_enc st c : negb (sidle st) = true -> c <> 0%N ->
  exists st', spec_step (EJoining 0 0) (st, c) = Some (st', c) /\ sjoining st' = true /\
              N.lor (enc st c) c_join_running = enc st' c.
Proof.
  intros H Z. simpl. destruct (N.eqb_spec c 0); [tauto|].
  destruct st; try discriminate; eexists; (split; [reflexivity|]); (split; [reflexivity|]);
    unfold enc, c_join_running; simpl; rewrite lor_low by reflexivity; reflexivity.
Qed.

(** ** the invariant *)
Definition wD p := match p with DACas _ => 1 | _ => 0 end%Z.
Definition wE p := match p with DAExch => 1 | _ => 0 end%Z.
Definition wR p := match p with DARun _ => 1 | _ => 0 end%Z.
Definition wJ p := match p with JLoad _ | JReg _ _ => 1 | _ => 0 end%Z.
Definition wj j p : Z := match p with JCas i _ | JLoad i | JReg i _ => if Nat.eqb i j then 1%Z else 0%Z | _ => 0%Z end.

Definition oldok (old : N) : Prop := exists st c, old = enc st c /\ valid st c.
(** a state in which t's current try_associate call may have failed *)
Definition since_try (lg : list event) (t : tid) (st : sstate) (c : N) : Prop :=
  exists l1 l3 l4, lg = l1 ++ l3 ++ ETry t :: l4 /\ (forall e, In e (l1 ++ l3) -> thread_of e <> t) /\
    spec_run (l3 ++ ETry t :: l4) = Some (st, c).
Definition pok (lg : list event) (r : regs) (t : tid) (p : pc) : Prop :=
  match p with
  | TACas old => exists st c, old = enc st c /\ valid st c /\ since_try lg t st c
  | DACas old => oldok old /\ count old <> 0%N
  | JCas _ old => oldok old
  | JReg _ RThis => r = RThis
  | _ => True
  end.

Definition good (e : event) (l : list event) : Prop :=
  match e with
  | EDone _ j => spec_run l = Some (joined, 0%N) /\ n_done j l = 0 /\ n_join j l = 1 /\ n_assoc l = n_rel l
  | EFail t => exists st c, since_try l t st c /\ (sclosed st = true \/ c = max_associations)
  | _ => True
  end.
Fixpoint hist (l : list event) : Prop := match l with [] => True | e :: l => good e l /\ hist l end.

Definition one_if (b : bool) : Z := if b then 1%Z else 0%Z.

Record invr (s : state) (st : sstate) (c : N) (l : list nat) : Prop := {
  i_spec : spec_run (log s) = Some (st, c);
  i_bits : bits s = enc st c;
  i_valid : valid st c;
  i_held : (Z.of_nat (held s) + sumz wD (thr s) = Z.of_N c)%Z;
  i_pok : forall t p, nth_error (thr s) t = Some p -> pok (log s) (reg s) t p;
  i_exch : st <> joined -> sumz wE (thr s) = 0%Z /\ reg s <> RThis;
  i_one : (sumz wE (thr s) <= 1)%Z /\ (reg s = RThis -> sumz wE (thr s) = 0%Z);
  i_reg : match reg s with
          | RPtr p => lseg (next s) p l None /\ sumz wR (thr s) = 0%Z /\
                      ((sjoining st = true \/ sumz wE (thr s) = 1%Z) <-> (0 < sumz wJ (thr s) + Z.of_nat (length l))%Z)
          | RThis => (sumz wR (thr s) <= 1)%Z /\
                     (forall t p, nth_error (thr s) t = Some (DARun p) -> lseg (next s) p l None) /\
                     (sumz wR (thr s) = 0%Z -> l = [])
          end;
  i_part : forall j, (sumz (wj j) (thr s) + Z.of_nat (count_occ Nat.eq_dec l j) + Z.of_nat (n_done j (log s)) = one_if (Nat.ltb j (njoin s)))%Z;
  i_join : forall j, Z.of_nat (n_join j (log s)) = one_if (j <? njoin s);
  i_done : forall j, 0 < n_done j (log s) -> st = joined;
  i_assoc : (Z.of_nat (n_assoc (log s)) = Z.of_nat (n_dis (log s)) + Z.of_N c)%Z;
  i_rel : (Z.of_nat (n_rel (log s)) = Z.of_nat (n_dis (log s)) + sumz wD (thr s))%Z;
  i_hist : hist (log s) }.

Lemma w_nonneg p : (0 <= wD p /\ 0 <= wE p /\ 0 <= wR p /\ 0 <= wJ p)%Z.
Proof. destruct p; simpl; lia. Qed.
Lemma wj_nonneg j p : (0 <= wj j p)%Z.
Proof. destruct p; simpl; try destruct (_ =? _); lia. Qed.

Lemma init_inv k nx : invr (init k nx) unused 0 [].
Proof.
  constructor; simpl; auto; rewrite ?sumz_repeat by reflexivity; try lia; auto.
  - unfold valid. simpl. repeat split; auto; try discriminate.
  - intros t p H. apply nth_repeat_some in H. subst. simpl. auto.
  - split; auto. discriminate.
  - repeat split; auto; [|lia]. intros [?|?]; [discriminate|lia].
  - intros j. rewrite sumz_repeat by reflexivity. reflexivity.
  - intros j H. cbv in H. lia.
Qed.

Lemma pok_mono lg lg' r r' t p evs : pok lg r t p -> lg' = evs ++ lg ->
  (forall e, In e evs -> thread_of e <> t) -> (r = RThis -> r' = RThis) -> pok lg' r' t p.
Proof.
  intros H -> E R. destruct p; simpl in *; auto.
  - destruct H as (st & c & H1 & H2 & l1 & l3 & l4 & H3 & H4 & H5). exists st, c. split; auto. split; auto.
    exists (evs ++ l1), l3, l4. split; [subst; rewrite <- app_assoc; auto|]. split; auto.
    intros e He. rewrite <- app_assoc in He. apply in_app_iff in He. destruct He; auto.
  - destruct head; auto.
Qed.

(** the usual case: thread t moves to p', logging evs *)
Lemma pok_upd s t p p' evs r' : nth_error (thr s) t = Some p ->
  (forall t p, nth_error (thr s) t = Some p -> pok (log s) (reg s) t p) ->
  (forall e, In e evs -> thread_of e = t) -> (reg s = RThis -> r' = RThis) ->
  pok (evs ++ log s) r' t p' ->
  forall u q, nth_error (upd (thr s) t p') u = Some q -> pok (evs ++ log s) r' u q.
Proof.
  intros Ht H E R P u q Hu. rewrite (nth_upd _ _ _ _ Ht) in Hu. destruct (Nat.eqb_spec t u) as [->|N].
  - inversion Hu; subst; auto.
  - eapply pok_mono; [apply H; exact Hu|reflexivity| |exact R]. intros e He. rewrite (E e He). auto.
Qed.

Lemma oldok_bits s st c l : invr s st c l -> oldok (bits s).
Proof. intros I. exists st, c. split; apply I. Qed.

(** a compare_exchange that fails only refreshes the expected value *)
Lemma refresh_inv s st c l t p p' : invr s st c l -> nth_error (thr s) t = Some p ->
  (forall w, In w [wD; wE; wR; wJ] -> w p = w p') -> (forall j, wj j p = wj j p') -> wR p = 0%Z ->
  pok (log s) (reg s) t p' -> invr (w_thr s t p') st c l.
Proof.
  intros I Ht W Wj WR P. destruct I.
  assert (Q : forall w, In w [wD; wE; wR; wJ] -> sumz w (upd (thr s) t p') = sumz w (thr s)).
  { intros w Hw. rewrite (sumz_upd _ _ _ p' Ht), (W w Hw). lia. }
  assert (Qj : forall j, sumz (wj j) (upd (thr s) t p') = sumz (wj j) (thr s)).
  { intros j. rewrite (sumz_upd _ _ _ p' Ht), (Wj j). lia. }
  constructor; simpl; auto; rewrite ?Q by (simpl; auto); auto.
  - apply (@pok_upd s t p p' [] (reg s) Ht); auto. simpl. tauto.
  - destruct (reg s); auto. destruct i_reg0 as (A & B & C). split; auto. split; auto.
    intros u q Hu. rewrite (nth_upd _ _ _ _ Ht) in Hu. destruct (t =? u); eauto.
    exfalso. inversion Hu; subst. rewrite (W wR) in WR by (simpl; auto). simpl in WR. lia.
  - intros j. rewrite Qj. auto.
Qed.

Lemma nd_cons j e l : n_done j (e :: l) = (match e with EDone _ i => if i =? j then 1 else 0 | _ => 0 end) + n_done j l.
Proof. unfold n_done. destruct e; simpl; auto. destruct (_ =? _); auto. Qed.
Lemma nj_cons j e l : n_join j (e :: l) = (match e with EJoin _ i => if i =? j then 1 else 0 | _ => 0 end) + n_join j l.
Proof. unfold n_join. destruct e; simpl; auto. destruct (_ =? _); auto. Qed.
Lemma na_cons e l : n_assoc (e :: l) = (match e with EAssoc _ => 1 | _ => 0 end) + n_assoc l.
Proof. unfold n_assoc. destruct e; simpl; auto. Qed.
Lemma nr_cons e l : n_rel (e :: l) = (match e with ERel _ => 1 | _ => 0 end) + n_rel l.
Proof. unfold n_rel. destruct e; simpl; auto. Qed.
Lemma ns_cons e l : n_dis (e :: l) = (match e with EDis _ => 1 | _ => 0 end) + n_dis l.
Proof. unfold n_dis. destruct e; simpl; auto. Qed.
Ltac ev := rewrite ?nd_cons, ?nj_cons, ?na_cons, ?nr_cons, ?ns_cons; cbv beta iota; rewrite ?Nat.add_0_l.
Ltac sm Ht p' := rewrite ?(sumz_upd _ _ _ p' Ht).

Lemma run_upd (s : state) t p p' nx (l : list nat) : nth_error (thr s) t = Some p ->
  (forall q, p' <> DARun q) ->
  (forall u q, nth_error (thr s) u = Some (DARun q) -> lseg nx q l None) ->
  forall u q, nth_error (upd (thr s) t p') u = Some (DARun q) -> lseg nx q l None.
Proof.
  intros Ht N H u q Hu. rewrite (nth_upd _ _ _ _ Ht) in Hu. destruct (t =? u); eauto.
  inversion Hu; subst. exfalso. eapply N; eauto.
Qed.

Arguments n_rel : simpl never.
Arguments n_dis : simpl never.
Arguments n_assoc : simpl never.
Arguments n_done : simpl never.
Arguments n_join : simpl never.
Arguments Z.of_nat : simpl never.
Ltac zn := rewrite ?Z.sub_0_r, ?Z.add_0_r.
Ltac cases Ht p' := constructor; simpl; sm Ht p'; simpl; ev; zn.
Ltac one_ev := let e := fresh in let H := fresh in intros e H; simpl in H; intuition (subst; auto).
Ltac jj Ht p' := let j := fresh "j" in intros j; sm Ht p'; simpl; ev; zn.

Lemma try_inv s st c l t : invr s st c l -> nth_error (thr s) t = Some Idle ->
  invr (w_log (w_thr s t (TACas (bits s))) (ETry t)) st c l.
Proof.
  intros I Ht. destruct I. set (p' := TACas (bits s)). cases Ht p'.
  - rewrite i_spec0. auto.
  - auto.
  - auto.
  - auto.
  - apply (@pok_upd s t Idle p' [ETry t] (reg s) Ht); auto; [one_ev|].
    simpl. exists st, c. split; auto. split; auto. exists [], [], (log s). simpl. rewrite i_spec0. auto.
  - auto.
  - auto.
  - destruct (reg s); auto. destruct i_reg0 as (A & B & C). split; auto. split; auto.
    eapply run_upd; eauto; discriminate.
  - jj Ht p'. auto.
  - jj Ht p'. auto.
  - jj Ht p'. eauto.
  - auto.
  - auto.
  - auto.
Qed.

Lemma rel_inv s st c l t h : invr s st c l -> nth_error (thr s) t = Some Idle -> held s = S h ->
  invr (w_log (w_held (w_thr s t (DACas (bits s))) h) (ERel t)) st c l.
Proof.
  intros I Ht Hh. pose proof (oldok_bits I) as OB. destruct I. set (p' := DACas (bits s)). cases Ht p'.
  - rewrite i_spec0. auto.
  - auto.
  - auto.
  - lia.
  - apply (@pok_upd s t Idle p' [ERel t] (reg s) Ht); auto; [one_ev|].
    simpl. split; auto. rewrite i_bits0, count_enc.
    assert (0 <= sumz wD (thr s))%Z by (apply sumz_nonneg; intros; apply w_nonneg). lia.
  - auto.
  - auto.
  - destruct (reg s); auto. destruct i_reg0 as (A & B & C). split; auto. split; auto.
    eapply run_upd; eauto; discriminate.
  - jj Ht p'. auto.
  - jj Ht p'. auto.
  - jj Ht p'. eauto.
  - auto.
  - lia.
  - auto.
Qed.

Lemma close_inv s st c l t : invr s st c l -> nth_error (thr s) t = Some Idle ->
  exists st', invr (w_log (w_bits s (N.lor (bits s) c_closed)) (EClose t)) st' c l.
Proof.
  intros I Ht. destruct I.
  destruct (spec_step (EClose 0) (st, c)) as [[st' c']|] eqn:E; [|simpl in E; discriminate].
  pose proof (@close_enc st c _ E) as B. simpl in B.
  assert (c' = c) as -> by (simpl in E; inversion E; auto).
  assert (J : st' = joined <-> st = joined) by (simpl in E; inversion E; destruct st; simpl; split; congruence).
  assert (J' : sjoining st' = sjoining st) by (simpl in E; inversion E; destruct st; auto).
  exists st'. constructor; simpl; ev.
  - rewrite i_spec0. exact E.
  - rewrite i_bits0, B. auto.
  - destruct i_valid0 as (V1 & V2 & V3). split; [|split; auto].
    + intros K. apply V1. simpl in E. inversion E; subst. destruct st; auto.
    + rewrite J'. auto.
  - auto.
  - intros u q Hu. destruct (Nat.eq_dec u t) as [->|N].
    + rewrite Ht in Hu. inversion Hu; subst. simpl. auto.
    + apply (@pok_mono (log s) (EClose t :: log s) (reg s) (reg s) u q [EClose t]); auto.
      intros e He; simpl in He; intuition (subst; auto).
  - intros K. apply i_exch0. tauto.
  - auto.
  - rewrite J'. auto.
  - intros j. ev. auto.
  - intros j. ev. auto.
  - intros j. ev. intros K. apply J. eauto.
  - auto.
  - auto.
  - auto.
Qed.

Lemma join_inv s st c l t : invr s st c l -> nth_error (thr s) t = Some Idle ->
  invr (w_log (w_njoin (w_thr s t (JCas (njoin s) (bits s))) (S (njoin s))) (EJoin t (njoin s))) st c l.
Proof.
  intros I Ht. pose proof (oldok_bits I) as OB. destruct I. set (p' := JCas (njoin s) (bits s)). cases Ht p'.
  - rewrite i_spec0. auto.
  - auto.
  - auto.
  - auto.
  - apply (@pok_upd s t Idle p' [EJoin t (njoin s)] (reg s) Ht); auto. one_ev.
  - auto.
  - auto.
  - destruct (reg s); auto. destruct i_reg0 as (A & B & C). split; auto. split; auto.
    eapply run_upd; eauto; discriminate.
  - jj Ht p'. specialize (i_part0 j). unfold one_if in *.
    destruct (Nat.eqb_spec (njoin s) j), (Nat.ltb_spec j (njoin s)), (Nat.ltb_spec j (S (njoin s))); lia.
  - jj Ht p'. specialize (i_join0 j). unfold one_if in *.
    destruct (Nat.eqb_spec (njoin s) j), (Nat.ltb_spec j (njoin s)), (Nat.ltb_spec j (S (njoin s))); lia.
  - jj Ht p'. eauto.
  - auto.
  - auto.
  - auto.
Qed.

Lemma fail_inv s st c l t old : invr s st c l -> nth_error (thr s) t = Some (TACas old) ->
  is_closed old || (count old =? max_associations)%N = true ->
  invr (w_log (w_thr s t Idle) (EFail t)) st c l.
Proof.
  intros I Ht E. destruct I. pose proof (i_pok0 _ _ Ht) as P. simpl in P. destruct P as (st' & c' & -> & V & ST).
  rewrite closed_enc, count_enc in E. apply orb_prop in E. set (p' := Idle). cases Ht p'.
  - rewrite i_spec0. auto.
  - auto.
  - auto.
  - auto.
  - apply (@pok_upd s t (TACas (enc st' c')) p' [EFail t] (reg s) Ht); auto; [one_ev|simpl; auto].
  - auto.
  - auto.
  - destruct (reg s); auto. destruct i_reg0 as (A & B & C). split; auto. split; auto.
    eapply run_upd; eauto; discriminate.
  - jj Ht p'. auto.
  - jj Ht p'. auto.
  - jj Ht p'. eauto.
  - auto.
  - auto.
  - split; auto. exists st', c'. split; auto. destruct E as [E|E]; auto. apply N.eqb_eq in E. auto.
Qed.

Lemma assoc_inv s st c l t : invr s st c l -> nth_error (thr s) t = Some (TACas (bits s)) ->
  is_closed (bits s) || (count (bits s) =? max_associations)%N = false ->
  exists st', invr (w_log (w_held (w_thr (w_bits s (ta_new (bits s))) t Idle) (held s + 1)) (EAssoc t)) st' (c + 1) l.
Proof.
  intros I Ht E. destruct I. rewrite i_bits0, closed_enc, count_enc in E. apply orb_false_elim in E. destruct E as [E1 E2].
  destruct (spec_step (EAssoc 0) (st, c)) as [[st' c']|] eqn:E.
  2:{ simpl in E. rewrite E2 in E. destruct st; simpl in *; discriminate. }
  assert (c' = c + 1)%N as ->. { simpl in E. rewrite E2 in E. destruct st; inversion E; auto. }
  assert (J : st <> joined). { intros ->. discriminate. }
  assert (J2 : st' <> joined /\ sidle st' = false). { simpl in E. rewrite E2 in E. destruct st; inversion E; subst; split; auto; discriminate. }
  assert (J' : sjoining st' = sjoining st). { simpl in E. rewrite E2 in E. destruct st; inversion E; auto. }
  pose proof (@ta_enc st c _ E) as B. simpl in B.
  exists st'. set (p' := Idle). cases Ht p'.
  - rewrite i_spec0. exact E.
  - rewrite i_bits0. auto.
  - destruct i_valid0 as (V1 & V2 & V3). apply N.eqb_neq in E2. split; [|split].
    + intros K. destruct J2. congruence.
    + intros; lia.
    + lia.
  - lia.
  - apply (@pok_upd s t (TACas (bits s)) p' [EAssoc t] (reg s) Ht); auto; [one_ev|simpl; auto].
  - intros _. auto.
  - auto.
  - rewrite J'. destruct (reg s); auto. destruct i_reg0 as (A & B' & C). split; auto. split; auto.
    eapply run_upd; eauto; discriminate.
  - jj Ht p'. auto.
  - jj Ht p'. auto.
  - jj Ht p'. intros K. exfalso. eauto.
  - lia.
  - auto.
  - auto.
Qed.

Lemma sum_ge (s : state) t p w : (forall q, 0 <= w q)%Z -> nth_error (thr s) t = Some p -> (w p <= sumz w (thr s))%Z.
Proof. intros H Ht. eapply sumz_ge; eauto. Qed.

Lemma dis_inv s st c l t : invr s st c l -> nth_error (thr s) t = Some (DACas (bits s)) ->
  c <> 0%N /\
  ((is_joined (da_new (bits s)) = true /\
    exists st' c', invr (w_log (w_thr (w_bits s (da_new (bits s))) t DAExch) (EDis t)) st' c' l) \/
   (is_joined (da_new (bits s)) = false /\
    negb (is_joining (da_new (bits s))) || (0 <? count (da_new (bits s)))%N = true /\
    exists st' c', invr (w_log (w_thr (w_bits s (da_new (bits s))) t Idle) (EDis t)) st' c' l)).
Proof.
  intros I Ht. destruct I. pose proof (i_pok0 _ _ Ht) as P. simpl in P. destruct P as (_ & P).
  rewrite i_bits0, count_enc in P. split; auto.
  destruct i_valid0 as (V1 & V2 & V3).
  assert (SI : sidle st = false) by (destruct (sidle st) eqn:Q; auto; exfalso; auto).
  destruct (spec_step (EDis 0) (st, c)) as [[st' c']|] eqn:E.
  2:{ simpl in E. destruct (N.eqb_spec c 0); [tauto|]. destruct st; simpl in *; discriminate. }
  pose proof (@da_enc st c _ E) as B. simpl in B. rewrite <- i_bits0 in B. rewrite B, joined_enc, joining_enc, count_enc.
  assert (c' = c - 1)%N as ->. { simpl in E. destruct (N.eqb_spec c 0); [tauto|]. destruct st; inversion E; auto. }
  destruct (i_exch0) as [X1 X2]; [intros ->; discriminate|].
  destruct (sjoining st && (c =? 1)%N) eqn:J.
  - left. apply andb_prop in J. destruct J as [J1 J2].
    assert (st' = joined) as ->. { simpl in E. destruct (N.eqb_spec c 0); [tauto|]. rewrite J2 in E. destruct st; inversion E; auto; discriminate. }
    apply N.eqb_eq in J2. subst c. split; auto. exists joined, 0%N. set (p' := DAExch). cases Ht p'.
    + rewrite i_spec0. exact E.
    + auto.
    + split; auto. split; [discriminate|]. unfold max_associations. lia.
    + lia.
    + apply (@pok_upd s t (DACas (bits s)) p' [EDis t] (reg s) Ht); auto; [one_ev|simpl; auto].
    + tauto.
    + split; [lia|tauto].
    + destruct (reg s); [tauto|]. destruct i_reg0 as (A & B' & C). split; auto. split; auto.
      split; intros _; [apply C; auto|]. right. lia.
    + jj Ht p'. auto.
    + jj Ht p'. auto.
    + jj Ht p'. auto.
    + lia.
    + lia.
    + auto.
  - right.
    assert (S' : st' = st). { simpl in E. destruct (N.eqb_spec c 0); [tauto|]. destruct st; simpl in J; try rewrite J in E; inversion E; auto. }
    subst st'. split; [destruct st; simpl in *; rewrite ?andb_false_r; auto; discriminate|].
    split.
    { destruct (sjoining st) eqn:Q; auto. simpl in J. apply N.eqb_neq in J. simpl. apply N.ltb_lt. lia. }
    exists st, (c - 1)%N. set (p' := Idle). cases Ht p'.
    + rewrite i_spec0. exact E.
    + auto.
    + split; [congruence|]. split; [|lia]. intros Q. rewrite Q in J. simpl in J. apply N.eqb_neq in J. lia.
    + lia.
    + apply (@pok_upd s t (DACas (bits s)) p' [EDis t] (reg s) Ht); auto; [one_ev|simpl; auto].
    + auto.
    + auto.
    + destruct (reg s); auto. destruct i_reg0 as (A & B' & C). split; auto. split; auto.
      eapply run_upd; eauto; discriminate.
    + jj Ht p'. auto.
    + jj Ht p'. auto.
    + jj Ht p'. eauto.
    + lia.
    + lia.
    + auto.
Qed.

(** what a thread holding join operation j knows about it *)
Lemma mine s st c l t p j : invr s st c l -> nth_error (thr s) t = Some p -> wj j p = 1%Z ->
  ~ In j l /\ n_done j (log s) = 0 /\ n_join j (log s) = 1 /\ j < njoin s.
Proof.
  intros I Ht W. pose proof (i_part I j) as P. pose proof (i_join I j) as Q.
  pose proof (@sum_ge s t p (wj j) (wj_nonneg j) Ht). rewrite W in H. unfold one_if in *.
  destruct (Nat.ltb_spec j (njoin s)); [|lia]. split; [|lia].
  intros K. apply (count_occ_In Nat.eq_dec) in K. lia.
Qed.
Lemma all_released s st l : invr s st 0 l -> n_assoc (log s) = n_rel (log s).
Proof.
  intros I. pose proof (i_assoc I). pose proof (i_rel I). pose proof (i_held I).
  assert (0 <= sumz wD (thr s))%Z by (apply sumz_nonneg; intros; apply w_nonneg). lia.
Qed.

Lemma inline_inv s st c l t j : invr s st c l -> nth_error (thr s) t = Some (JCas j (bits s)) -> c = 0%N ->
  invr (w_log (w_log (w_thr (w_bits s (make_bits (count (bits s)) c_closed)) t Idle) (EJoining t j)) (EDone t j)) joined 0 l.
Proof.
  intros I Ht ->. destruct (@mine _ _ _ _ _ _ j I Ht) as (M1 & M2 & M3 & M4); [simpl; rewrite Nat.eqb_refl; auto|].
  pose proof (all_released I) as AR. destruct I.
  assert (SJ : sjoining st = false) by (destruct (sjoining st) eqn:Q; auto; destruct i_valid0 as (_ & V & _); specialize (V Q); lia).
  assert (SP : spec_step (EJoining t j) (st, 0%N) = Some (joined, 0%N)) by reflexivity.
  set (p' := Idle). cases Ht p'.
  - rewrite i_spec0, SP. reflexivity.
  - rewrite i_bits0, count_enc. reflexivity.
  - split; auto. split; [discriminate|]. unfold max_associations. lia.
  - auto.
  - apply (@pok_upd s t (JCas j (bits s)) p' [EDone t j; EJoining t j] (reg s) Ht); auto; [one_ev|simpl; auto].
  - tauto.
  - auto.
  - rewrite SJ in i_reg0. destruct (reg s); auto. destruct i_reg0 as (A & B' & C). split; auto. split; auto.
    eapply run_upd; eauto; discriminate.
  - jj Ht p'. specialize (i_part0 j0). destruct (j =? j0); lia.
  - jj Ht p'. auto.
  - auto.
  - lia.
  - lia.
  - split; auto. rewrite i_spec0, SP. ev. auto.
Qed.

Lemma joining_inv s st c l t j : invr s st c l -> nth_error (thr s) t = Some (JCas j (bits s)) -> c <> 0%N ->
  is_join_needed (bits s) = true /\ is_joining (N.lor (bits s) c_join_running) = true /\
  exists st', invr (w_log (w_thr (w_bits s (N.lor (bits s) c_join_running)) t (JLoad j)) (EJoining t j)) st' c l.
Proof.
  intros I Ht NZ. destruct I. destruct i_valid0 as (V1 & V2 & V3).
  assert (SI : sidle st = false) by (destruct (sidle st) eqn:Q; auto; exfalso; auto).
  destruct (@join_enc st c) as (st' & E & J & B); [rewrite SI; auto|auto|].
  rewrite <- i_bits0 in B. rewrite B, joining_enc, J. split; [rewrite i_bits0, needed_enc, SI; auto|]. split; auto.
  destruct i_exch0 as [X1 X2]; [intros ->; discriminate|].
  exists st'. set (p' := JLoad j). cases Ht p'.
  - rewrite i_spec0. exact E.
  - auto.
  - split; [|split; auto; intros; lia]. intros Q. destruct st'; discriminate.
  - auto.
  - apply (@pok_upd s t (JCas j (bits s)) p' [EJoining t j] (reg s) Ht); auto; [one_ev|simpl; auto].
  - intros _. split; [lia|auto].
  - auto.
  - destruct (reg s); [tauto|]. destruct i_reg0 as (A & B' & C). split; auto. split; auto.
    split; intros _; [|auto].
    assert (0 <= sumz wJ (thr s))%Z by (apply sumz_nonneg; intros; apply w_nonneg). lia.
  - jj Ht p'. specialize (i_part0 j0). destruct (j =? j0); lia.
  - jj Ht p'. auto.
  - jj Ht p'. intros K. apply i_done0 in K. subst. discriminate.
  - auto.
  - auto.
  - auto.
Qed.

Lemma exch_inv s st c l t : invr s st c l -> nth_error (thr s) t = Some DAExch ->
  exists p, reg s = RPtr p /\ invr (w_thr (w_reg s RThis) t (DARun p)) st c l.
Proof.
  intros I Ht. destruct I.
  assert (0 <= sumz wE (thr s) /\ 1 <= sumz wE (thr s))%Z.
  { split; [apply sumz_nonneg; intros; apply w_nonneg|]. apply (@sum_ge s t DAExch wE); auto. intros; apply w_nonneg. }
  destruct i_one0 as [O1 O2]. destruct (reg s) as [|p] eqn:R; [specialize (O2 eq_refl); lia|].
  assert (J : st = joined). { destruct st; auto; destruct i_exch0 as [X _]; try discriminate; lia. }
  subst st. destruct i_reg0 as (A & B & C). exists p. split; auto. set (p' := DARun p). cases Ht p'; auto.
  - apply (@pok_upd s t DAExch p' [] RThis Ht); auto; [rewrite R; auto|one_ev|simpl; auto].
  - tauto.
  - split; [lia|]. intros; lia.
  - split; [lia|]. split; [|lia].
    intros u q Hu. rewrite (nth_upd _ _ _ _ Ht) in Hu. destruct (t =? u); [inversion Hu; subst; auto|].
    pose proof (@sum_ge s u (DARun q) wR (fun q => proj1 (proj2 (proj2 (w_nonneg q)))) Hu). simpl in *. lia.
  - jj Ht p'. auto.
Qed.

Lemma runend_inv s st c l t : invr s st c l -> nth_error (thr s) t = Some (DARun None) ->
  invr (w_thr s t Idle) st c l.
Proof.
  intros I Ht. destruct I.
  assert (G : (1 <= sumz wR (thr s))%Z).
  { apply (@sum_ge s t (DARun None) wR); auto. intros; apply w_nonneg. }
  destruct (reg s) as [|p] eqn:R; [|lia]. destruct i_reg0 as (A & B & C).
  assert (l = []) as ->. { specialize (B _ _ Ht). destruct l; auto. simpl in B. destruct B; discriminate. }
  set (p' := Idle). cases Ht p'; try assumption; rewrite ?R; try assumption.
  - apply (@pok_upd s t (DARun None) p' [] RThis Ht); auto; [rewrite R; auto|one_ev|simpl; auto].
  - split; [lia|]. split; [|auto]. refine (@run_upd s t _ p' (next s) [] Ht _ B). discriminate.
  - jj Ht p'. specialize (i_part0 j); simpl in i_part0; lia.
Qed.

Lemma run_inv s st c l t j junk : invr s st c l -> nth_error (thr s) t = Some (DARun (Some j)) ->
  exists l', invr (w_log (w_next (w_thr s t (DARun (next s j))) j junk) (EDone t j)) st c l'.
Proof.
  intros I Ht.
  assert (G : (1 <= sumz wR (thr s))%Z).
  { apply (@sum_ge s t (DARun (Some j)) wR); auto. intros; apply w_nonneg. }
  pose proof (i_reg I) as IR. destruct (reg s) as [|p] eqn:R; [|lia]. destruct IR as (A & B & C).
  pose proof (B _ _ Ht) as L. destruct l as [|j' l]; simpl in L; [discriminate|]. destruct L as [Ej L]. inversion Ej; subst j'.
  assert (JD : st = joined). { destruct st; auto; destruct (i_exch I) as [_ X]; try discriminate; congruence. }
  subst st. assert (c = 0%N) as ->. { destruct (i_valid I) as (V & _). auto. }
  pose proof (all_released I) as AR. destruct I.
  pose proof (i_part0 j) as Pj. pose proof (i_join0 j) as Jj.
  assert (NN := sumz_nonneg (wj j) (thr s) (wj_nonneg j)).
  cbn [count_occ] in Pj. destruct (Nat.eq_dec j j) as [_|]; [|tauto].
  assert (NI : ~ In j l). { intros K. apply (count_occ_In Nat.eq_dec) in K. unfold one_if in Pj. destruct (j <? njoin s); lia. }
  exists l. set (p' := DARun (next s j)). cases Ht p'.
  - rewrite i_spec0. auto.
  - auto.
  - auto.
  - auto.
  - apply (@pok_upd s t (DARun (Some j)) p' [EDone t j] (reg s) Ht); auto; [one_ev|simpl; auto].
  - tauto.
  - exact i_one0.
  - rewrite R. split; [lia|]. split; [|intros; lia].
    intros u q Hu. rewrite (nth_upd _ _ _ _ Ht) in Hu. destruct (Nat.eqb_spec t u) as [<-|NE].
    + inversion Hu; subst. eapply lseg_frame; [exact L|]. intros x Hx. apply fset_other. congruence.
    + pose proof (@sumz_ge2 _ wR (thr s) (fun q => proj1 (proj2 (proj2 (w_nonneg q)))) _ _ _ _ NE Ht Hu). simpl in H. lia.
  - jj Ht p'. specialize (i_part0 j0). cbn [count_occ] in i_part0.
    destruct (Nat.eq_dec j j0), (Nat.eqb_spec j j0); try congruence; lia.
  - jj Ht p'. auto.
  - auto.
  - lia.
  - lia.
  - split; auto. split; auto. unfold one_if in *. destruct (j <? njoin s); lia.
Qed.

Lemma inline2_inv s st c l t j junk : invr s st c l -> nth_error (thr s) t = Some (JReg j RThis) ->
  invr (w_log (w_next (w_thr s t Idle) j junk) (EDone t j)) st c l.
Proof.
  intros I Ht. destruct (@mine _ _ _ _ _ _ j I Ht) as (M1 & M2 & M3 & M4); [simpl; rewrite Nat.eqb_refl; auto|].
  pose proof (i_pok I _ Ht) as R. simpl in R.
  assert (JD : st = joined). { destruct st; auto; destruct (i_exch I) as [_ X]; try discriminate; congruence. }
  subst st. assert (c = 0%N) as ->. { destruct (i_valid I) as (V & _). auto. }
  pose proof (all_released I) as AR. destruct I. rewrite R in *.
  set (p' := Idle). cases Ht p'.
  - rewrite i_spec0. auto.
  - auto.
  - auto.
  - auto.
  - rewrite R. apply (@pok_upd s t (JReg j RThis) p' [EDone t j] RThis Ht); auto; [rewrite R; auto|one_ev|simpl; auto].
  - tauto.
  - rewrite R. auto.
  - rewrite R. destruct i_reg0 as (A & B & C). split; auto. split; auto. intros u q Hu.
    assert (Q : lseg (next s) q l None). { eapply run_upd; [exact Ht| |exact B|exact Hu]. discriminate. }
    eapply lseg_frame; [exact Q|]. intros x Hx. apply fset_other. congruence.
  - jj Ht p'. specialize (i_part0 j0). destruct (Nat.eqb_spec j j0); lia.
  - jj Ht p'. auto.
  - auto.
  - lia.
  - lia.
  - auto.
Qed.

Lemma next_inv s st c l t j h v : invr s st c l -> nth_error (thr s) t = Some (JReg j h) -> invr (w_next s j v) st c l.
Proof.
  intros I Ht. destruct (@mine _ _ _ _ _ _ j I Ht) as (M1 & M2 & M3 & M4); [simpl; rewrite Nat.eqb_refl; auto|].
  destruct I. constructor; simpl; auto.
  assert (F : forall x, In x l -> fset (next s) j v x = next s x) by (intros x Hx; apply fset_other; congruence).
  destruct (reg s).
  - destruct i_reg0 as (A & B & C). split; auto. split; auto. intros u q Hu. eapply lseg_frame; eauto.
  - destruct i_reg0 as (A & B & C). split; auto. eapply lseg_frame; eauto.
Qed.

Lemma push_inv s st c l t j h : invr s st c l -> nth_error (thr s) t = Some (JReg j (RPtr h)) -> reg s = RPtr h ->
  invr (w_thr (w_reg (w_next s j h) (RPtr (Some j))) t Idle) st c (j :: l).
Proof.
  intros I0 Ht R. pose proof (@next_inv s st c l t j (RPtr h) h I0 Ht) as I. destruct (@mine _ _ _ _ _ _ j I0 Ht) as (M1 & M2 & M3 & M4); [simpl; rewrite Nat.eqb_refl; auto|].
  clear I0. destruct I. simpl in *. rewrite R in *. destruct i_reg0 as (A & B & C).
  set (p' := Idle). cases Ht p'; auto.
  - intros u q Hu. rewrite (nth_upd _ _ _ _ Ht) in Hu. destruct (Nat.eqb_spec t u) as [->|N]; [inversion Hu; subst; simpl; auto|].
    eapply pok_mono with (evs := []); [apply i_pok0; exact Hu|reflexivity|simpl; tauto|discriminate].
  - intros K. destruct (i_exch0 K). split; auto. discriminate.
  - split; [tauto|discriminate].
  - rewrite fset_same. split; auto. split; auto.
    pose proof (@sum_ge s t _ wJ (fun q => proj2 (proj2 (proj2 (w_nonneg q)))) Ht). simpl in *.
    rewrite C. lia.
  - jj Ht p'. specialize (i_part0 j0). cbn [count_occ].
    destruct (Nat.eq_dec j j0), (Nat.eqb_spec j j0); try congruence; lia.
Qed.

Definition inv (s : state) : Prop := exists st c l, invr s st c l.

Lemma regs_eqb_eq a b : regs_eqb a b = true <-> a = b.
Proof.
  destruct a as [|p], b as [|q]; simpl; split; intros H; try discriminate; auto.
  - apply ptr_eqb_eq in H. congruence.
  - inversion H. apply ptr_eqb_eq. auto.
Qed.

Lemma refresh_ta s st c l t old : invr s st c l -> nth_error (thr s) t = Some (TACas old) ->
  invr (w_thr s t (TACas (bits s))) st c l.
Proof.
  intros I Ht. apply refresh_inv with (p := TACas old); auto.
  - simpl. intros w [<-|[<-|[<-|[<-|[]]]]]; auto.
  - pose proof (i_pok I _ Ht) as P. simpl in P. destruct P as (st0 & c0 & _ & _ & l1 & l3 & l4 & E & N & _).
    simpl. exists st, c. split; [apply I|]. split; [apply I|].
    exists [], (l1 ++ l3), l4. rewrite E. rewrite <- app_assoc. split; auto. split; auto.
    rewrite <- E. apply I.
Qed.

Lemma step_inv s t a s' : inv s -> step t a s = Some s' -> inv s'.
Proof.
  intros (st & c & l & I) E. unfold step in E.
  destruct (nth_error (thr s) t) as [p|] eqn:Ht; [|discriminate].
  pose proof (oldok_bits I) as OB.
  destruct a, p; try discriminate.
  - inversion E; subst. exists st, c, l. apply try_inv; auto.
  - destruct (held s) as [|h] eqn:Hh; inversion E; subst. exists st, c, l. apply rel_inv; auto.
  - inversion E; subst. destruct (@close_inv _ _ _ _ t I Ht) as [st' I']. exists st', c, l. auto.
  - inversion E; subst. exists st, c, l. apply join_inv; auto.
  - (* TACas *)
    unfold step_ta in E. destruct (is_closed old || (count old =? max_associations)%N) eqn:F.
    + inversion E; subst. exists st, c, l. eapply fail_inv; eauto.
    + destruct (max_associations <=? count old)%N; [discriminate|]. simpl in E.
      destruct (N.eqb_spec (bits s) old) as [<-|].
      * inversion E; subst. destruct (@assoc_inv _ _ _ _ t I Ht F) as [st' I']. exists st', (c + 1)%N, l. auto.
      * inversion E; subst. exists st, c, l. eapply refresh_ta; eauto.
  - (* DACas *)
    unfold step_da in E. destruct (count old =? 0)%N; [discriminate|]. simpl in E.
    destruct (N.eqb_spec (bits s) old) as [<-|].
    + destruct (@dis_inv _ _ _ _ t I Ht) as [_ [(J & st' & c' & I')|(J & J2 & st' & c' & I')]]; rewrite J in E.
      * inversion E; subst. exists st', c', l. auto.
      * rewrite J2 in E. simpl in E. inversion E; subst. exists st', c', l. auto.
    + inversion E; subst. exists st, c, l. apply refresh_inv with (p := DACas old); auto.
      * simpl. intros w [<-|[<-|[<-|[<-|[]]]]]; auto.
      * simpl. split; auto. rewrite (i_bits I), count_enc. pose proof (i_held I) as H.
        pose proof (@sum_ge s t _ wD (fun q => proj1 (w_nonneg q)) Ht). simpl in H0. lia.
  - (* DAExch *)
    destruct (@exch_inv _ _ _ _ t I Ht) as (p & R & I'). rewrite R in E. inversion E; subst. exists st, c, l. auto.
  - (* DARun *)
    destruct ops as [j|]; inversion E; subst.
    + destruct (@run_inv _ _ _ _ t _ junk I Ht) as [l' I']. exists st, c, l'. auto.
    + exists st, c, l. apply runend_inv; auto.
  - (* JCas *)
    unfold step_jn in E. destruct (N.eqb_spec (count old) 0) as [Z|Z].
    + destruct (is_joined (make_bits (count old) c_closed)); [|discriminate]. simpl in E.
      destruct (N.eqb_spec (bits s) old) as [<-|].
      * inversion E; subst. rewrite (i_bits I), count_enc in Z. exists joined, 0%N, l. eapply inline_inv; eauto.
      * inversion E; subst. exists st, c, l. apply refresh_inv with (p := JCas j old); auto.
        simpl. intros w [<-|[<-|[<-|[<-|[]]]]]; auto.
    + destruct (is_join_needed old); [|discriminate]. simpl in E.
      destruct (is_joining (N.lor old c_join_running)); [|discriminate]. simpl in E.
      destruct (N.eqb_spec (bits s) old) as [<-|].
      * inversion E; subst. rewrite (i_bits I), count_enc in Z.
        destruct (@joining_inv _ _ _ _ t _ I Ht Z) as (_ & _ & st' & I'). exists st', c, l. auto.
      * inversion E; subst. exists st, c, l. apply refresh_inv with (p := JCas j old); auto.
        simpl. intros w [<-|[<-|[<-|[<-|[]]]]]; auto.
  - (* JLoad *)
    inversion E; subst. exists st, c, l. apply refresh_inv with (p := JLoad j); auto.
    + simpl. intros w [<-|[<-|[<-|[<-|[]]]]]; auto.
    + simpl. destruct (reg s); auto.
  - (* JReg *)
    destruct head as [|h].
    + inversion E; subst. exists st, c, l. apply inline2_inv; auto.
    + destruct (regs_eqb (reg (w_next s j h)) (RPtr h)) eqn:R.
      * inversion E; subst. apply regs_eqb_eq in R. exists st, c, (j :: l). apply push_inv; auto.
      * inversion E; subst. exists st, c, l.
        apply refresh_inv with (p := JReg j (RPtr h)); auto.
        -- eapply next_inv; eauto.
        -- simpl. intros w [<-|[<-|[<-|[<-|[]]]]]; auto.
        -- simpl. destruct (reg s); auto.
  - unfold step_ta in E. destruct (is_closed old || (count old =? max_associations)%N) eqn:F; [discriminate|].
    destruct (max_associations <=? count old)%N; [discriminate|]. simpl in E.
    inversion E; subst. exists st, c, l. eapply refresh_ta; eauto.
  - unfold step_da in E. destruct (count old =? 0)%N; [discriminate|]. simpl in E.
    inversion E; subst. exists st, c, l. apply refresh_inv with (p := DACas old); auto.
    + simpl. intros w [<-|[<-|[<-|[<-|[]]]]]; auto.
    + simpl. split; auto. rewrite (i_bits I), count_enc. pose proof (i_held I) as H.
      pose proof (@sum_ge s t _ wD (fun q => proj1 (w_nonneg q)) Ht). simpl in H0. lia.
  - unfold step_jn in E. simpl in E.
    assert (E' : w_thr s t (JCas j (bits s)) = s').
    { destruct (count old =? 0)%N.
      - destruct (is_joined (make_bits (count old) c_closed)); simpl in E; congruence.
      - destruct (is_join_needed old); simpl in E; [|discriminate].
        destruct (is_joining (N.lor old c_join_running)); simpl in E; congruence. }
    subst. exists st, c, l. apply refresh_inv with (p := JCas j old); auto.
    simpl. intros w [<-|[<-|[<-|[<-|[]]]]]; auto.
  - destruct head as [|h]; inversion E; subst. exists st, c, l.
    apply refresh_inv with (p := JReg j (RPtr h)); auto.
    + eapply next_inv; eauto.
    + simpl. intros w [<-|[<-|[<-|[<-|[]]]]]; auto.
    + simpl. destruct (reg s); auto.
Qed.

Theorem reachable_inv s : reachable s -> inv s.
Proof.
  induction 1 as [k nx|s t a s' R IH E].
  - exists unused, 0%N, []. apply init_inv.
  - eapply step_inv; eauto.
Qed.
