(** * BwosProofs: invariant of the work-stealing queue. *)
From Coq Require Import List Arith Bool Lia ZArith NArith.
From Verif Require Import Conc BwosModel BwosSpec.
Import ListNotations.
Set Implicit Arguments.
Arguments Z.add : simpl never.
Arguments Z.sub : simpl never.
Arguments Z.of_nat : simpl never.
Arguments N.add : simpl never.
Arguments N.of_nat : simpl never.
Arguments N.sub : simpl never.
Arguments N.modulo : simpl never.
Arguments N.pow : simpl never.

Section Params.
Variable nb : nat.
Variable bs : nat.

(** ** counters *)
Definition rnd (c : nat) : N := (N.of_nat (c / nb) mod M)%N.
Definition enc (c : nat) : word := (rnd c, c mod nb).

Lemma M_pos : (M <> 0)%N. Proof. unfold M. intros H. discriminate H. Qed.
Lemma add1_spec q : add1 (N.of_nat q mod M) = (N.of_nat (S q) mod M)%N.
Proof. unfold add1. rewrite N.add_mod_idemp_l by apply M_pos. f_equal. lia. Qed.
Lemma sub1_spec q : sub1 (N.of_nat (S q) mod M) = (N.of_nat q mod M)%N.
Proof.
  unfold sub1. rewrite N.add_mod_idemp_l by apply M_pos.
  replace (N.of_nat (S q) + (M - 1))%N with (N.of_nat q + 1 * M)%N by (pose proof M_pos; lia).
  apply N.mod_add, M_pos.
Qed.
Lemma succ_cases c : 0 < nb ->
  (S (c mod nb) = nb /\ S c mod nb = 0 /\ S c / nb = S (c / nb)) \/
  (S (c mod nb) < nb /\ S c mod nb = S (c mod nb) /\ S c / nb = c / nb).
Proof.
  intros H. pose proof (Nat.div_mod c nb ltac:(lia)) as D. pose proof (Nat.mod_upper_bound c nb ltac:(lia)) as U.
  set (q := c / nb) in *. set (r := c mod nb) in *.
  destruct (Nat.eq_dec (S r) nb) as [E|E].
  - left. split; auto.
    assert (F : S c = nb * S q + 0) by nia.
    split; symmetry; [apply (Nat.mod_unique _ _ (S q)); auto|apply (Nat.div_unique _ _ _ 0); auto].
  - right. split; [lia|]. assert (F : S c = nb * q + S r) by lia.
    split; symmetry; [apply (Nat.mod_unique _ _ q); lia|apply (Nat.div_unique _ _ _ (S r)); lia].
Qed.
Lemma next_ix_mod c : 0 < nb -> next_ix nb (c mod nb) = S c mod nb.
Proof.
  intros H. unfold next_ix. destruct (succ_cases c H) as [(A & B & _)|(A & B & _)].
  - rewrite A, Nat.eqb_refl. auto.
  - replace (S (c mod nb) =? nb) with false by (symmetry; apply Nat.eqb_neq; lia). auto.
Qed.
Lemma increase_enc c : 0 < nb -> increase nb (enc c) = enc (S c).
Proof.
  intros H. unfold increase, enc. cbn [fst snd]. rewrite (next_ix_mod c H). f_equal. unfold rnd.
  destruct (succ_cases c H) as [(A & B & D)|(A & B & D)]; rewrite B, D; simpl; auto. apply add1_spec.
Qed.
Lemma decrease_enc c : 0 < nb -> decrease nb (enc (S c)) = enc c.
Proof.
  intros H. unfold decrease, enc, prev_ix. cbn [fst snd]. unfold rnd.
  destruct (succ_cases c H) as [(A & B & D)|(A & B & D)]; rewrite B, D; simpl.
  - rewrite sub1_spec. f_equal. lia.
  - f_equal. lia.
Qed.
Lemma rnd_wrap c : 0 < nb -> sub1 (rnd (c + nb)) = rnd c.
Proof.
  intros H. unfold rnd. replace (c + nb) with (c + 1 * nb) by lia. rewrite Nat.div_add by lia.
  replace (c / nb + 1) with (S (c / nb)) by lia. apply sub1_spec.
Qed.
Lemma mod_wrap c : 0 < nb -> (c + nb) mod nb = c mod nb.
Proof. intros H. replace (c + nb) with (c + 1 * nb) by lia. apply Nat.mod_add. lia. Qed.
Lemma mod_inj g c d : 0 < nb -> g <= c -> c < g + nb -> g <= d -> d < g + nb -> c mod nb = d mod nb -> c = d.
Proof.
  intros H A B C D E. pose proof (Nat.div_mod c nb ltac:(lia)). pose proof (Nat.div_mod d nb ltac:(lia)).
  assert (c / nb = d / nb) by nia. nia.
Qed.
Lemma cover g i : 0 < nb -> i < nb -> exists c, g <= c < g + nb /\ c mod nb = i.
Proof.
  intros H I. pose proof (Nat.div_mod g nb ltac:(lia)). pose proof (Nat.mod_upper_bound g nb ltac:(lia)).
  destruct (le_lt_dec (g mod nb) i).
  - exists (nb * (g / nb) + i). split; [lia|]. rewrite Nat.add_comm, Nat.mul_comm, Nat.mod_add by lia. apply Nat.mod_small; auto.
  - exists (nb * (S (g / nb)) + i). split; [nia|]. rewrite Nat.add_comm, Nat.mul_comm, Nat.mod_add by lia. apply Nat.mod_small; auto.
Qed.
Lemma word_eqb_eq a b : word_eqb a b = true <-> a = b.
Proof.
  destruct a as [r i], b as [q j]. unfold word_eqb. simpl. rewrite andb_true_iff, N.eqb_eq, Nat.eqb_eq.
  split; [intros [-> ->]; auto|intros E; inversion E; auto].
Qed.

(** ** blocks *)
Definition cl (b : blk) : nat := if snd (stail b) <? bs then snd (stail b) else snd (head b).
Definition slice (b : blk) : list task := map (ring b) (seq (cl b) (tail b - cl b)).
Definition wfb (b : blk) : Prop :=
  snd (stail b) <= bs /\ snd (head b) <= bs /\ tail b <= bs /\ cl b <= tail b /\
  (snd (stail b) < bs -> tail b = bs /\ snd (head b) = bs).
Definition owned (c : nat) (b : blk) : Prop := stail b = (rnd c, bs) /\ fst (head b) = rnd c.
Definition granted (c : nat) (b : blk) : Prop :=
  head b = (rnd c, bs) /\ tail b = bs /\ fst (stail b) = rnd c.
Definition free (c : nat) (b : blk) : Prop := stail b = (sub1 (rnd c), bs) /\ snd (head b) = tail b.

Definition curok (p : opc) (c : nat) (b : blk) : Prop :=
  match p with
  | OIdle | PL _ _ | GG | GL => owned c b
  | PW bulk rest w => owned c b /\ tail b + length w <= bs /\ map (ring b) (seq (tail b) (length w)) = w
  | PA _ _ | PS _ _ | PG1 _ _ => owned c b /\ tail b = bs
  | PG2 _ _ e => owned c b /\ tail b = bs /\ e = (rnd c, bs)
  | PR1 _ _ | PR2 _ _ => free c b
  | PR3 _ _ => head b = (rnd c, 0) /\ tail b = 0 /\ snd (stail b) = bs
  | PR4 _ _ => head b = (rnd c, 0) /\ tail b = 0 /\ stail b = (rnd c, bs)
  | GR1 => owned c b /\ snd (head b) = tail b
  | GR2 v => owned c b /\ snd (head b) = tail b /\ v = (rnd c, bs)
  | GT => granted c b
  end.
(** facts about the neighbours *)
Definition nearok (p : opc) (gs go : nat) (bl : nat -> blk) : Prop :=
  match p with
  | PS _ _ => 1 < nb /\ free (S go) (bl (S go mod nb))
  | PG1 _ _ | PG2 _ _ _ => S go < gs + nb
  | GR1 | GR2 _ => gs < go
  | _ => True
  end.
Definition last_stable (p : opc) : bool :=
  match p with PR1 _ _ | PR2 _ _ | PR3 _ _ | PR4 _ _ | PL _ _ | GT | GL => false | _ => true end.
Definition exc (p : opc) : bool := match p with PR3 _ _ | PR4 _ _ => true | _ => false end.
Definition quiet (p : opc) : bool := match p with PR2 _ _ | PR3 _ _ | PR4 _ _ => true | _ => false end.

Definition wfl (i : nat) (p : tpc) : Z :=
  match p with TR j _ | TN j _ => if Nat.eqb j i then 1 else 0 | _ => 0 end%Z.
Lemma wfl_nonneg i p : (0 <= wfl i p)%Z.
Proof. destruct p; simpl; try lia; destruct (_ =? _); lia. Qed.

Definition tok (l : list event) (bl : nat -> blk) (t : tid) (p : tpc) : Prop :=
  match p with
  | TR i x => i < nb /\ x < cl (bl i) /\ holding t l = Some (ring (bl i) x)
  | TN i v => i < nb /\ holding t l = Some v
  | TL th | TA th => snd th < nb /\ holding t l = None
  | TT th sp | TC th sp => snd th < nb /\ snd sp < bs /\ holding t l = None
  | TIdle => holding t l = None
  end.
Definition ppend (p : opc) (l : list event) : Prop :=
  match p with
  | OIdle | GG | GR1 | GR2 _ | GT | GL => pushing l = None
  | PW bulk rest w => exists vs acc, pushing l = Some (vs, acc) /\ vs = acc ++ w ++ rest /\ (bulk = true \/ length vs = 1)
  | PA bulk rest | PS bulk rest | PG1 bulk rest | PG2 bulk rest _ | PR1 bulk rest | PR2 bulk rest
  | PR3 bulk rest | PR4 bulk rest | PL bulk rest =>
      exists vs acc, pushing l = Some (vs, acc) /\ vs = acc ++ rest /\ (bulk = true \/ length vs = 1)
  end.
Definition good (e : event) (l : list event) : Prop :=
  match e with
  | EPushRet rest => exists vs acc, pushing l = Some (vs, acc) /\ vs = acc ++ rest
  | EPush _ => pushing l <> None
  | EPushCall _ | EPop _ => pushing l = None
  | EClaim t _ => holding t l = None
  | ESteal t v => holding t l = v
  end.
Fixpoint hist (l : list event) : Prop := match l with [] => True | e :: l => good e l /\ hist l end.

Definition Qof (bl : nat -> blk) (gs go : nat) : list task :=
  flat_map (fun c => slice (bl (c mod nb))) (seq gs (go - gs)) ++ slice (bl (go mod nb)).

Arguments Qof : simpl never.
Record inv (s : state) (gs go : nat) : Prop := {
  i_nb : 0 < nb;
  i_rng : gs <= go < gs + nb;
  i_start : start s = enc gs;
  i_own : opc_ s <> OIdle -> own s = enc go;
  i_last : last_stable (opc_ s) = true -> last s = enc go;
  i_grant : forall c, gs <= c < go -> granted c (blks s (c mod nb));
  i_free : forall c, go < c < gs + nb -> free c (blks s (c mod nb));
  i_cur : curok (opc_ s) go (blks s (go mod nb));
  i_near : nearok (opc_ s) gs go (blks s);
  i_wf : forall i, i < nb -> wfb (blks s i);
  i_cnt : forall i, i < nb -> (exc (opc_ s) = true -> i <> go mod nb) ->
          (Z.of_nat (scount (blks s i)) + sumz (wfl i) (thr s) = Z.of_nat (cl (blks s i)))%Z;
  i_fl0 : quiet (opc_ s) = true -> sumz (wfl (go mod nb)) (thr s) = 0%Z;
  i_tok : forall t p, nth_error (thr s) t = Some p -> tok (log s) (blks s) t p;
  i_deque : deque (log s) (Qof (blks s) gs go);
  i_pend : ppend (opc_ s) (log s);
  i_hist : hist (log s) }.

(** ** the contents *)
Lemma Qof_ext bl bl' gs go : gs <= go -> (forall c, gs <= c <= go -> slice (bl' (c mod nb)) = slice (bl (c mod nb))) ->
  Qof bl' gs go = Qof bl gs go.
Proof.
  intros R H. unfold Qof. f_equal; [|apply H; lia].
  assert (forall n g, (forall c, g <= c < g + n -> slice (bl' (c mod nb)) = slice (bl (c mod nb))) ->
     flat_map (fun c => slice (bl' (c mod nb))) (seq g n) = flat_map (fun c => slice (bl (c mod nb))) (seq g n)).
  { induction n; simpl; intros g K; auto. f_equal; [apply K; lia|]. apply IHn. intros; apply K; lia. }
  apply H0. intros. apply H. lia.
Qed.
Lemma fset_mod (bl : nat -> blk) gs go c b : 0 < nb -> gs <= go < gs + nb -> gs <= c < gs + nb -> c <> go ->
  fset bl (go mod nb) b (c mod nb) = bl (c mod nb).
Proof. intros H R C N. apply fset_other. intros E. apply N. eapply mod_inj with (g := gs); eauto; lia. Qed.
Lemma Qof_cur bl gs go b : 0 < nb -> gs <= go < gs + nb ->
  Qof (fset bl (go mod nb) b) gs go = flat_map (fun c => slice (bl (c mod nb))) (seq gs (go - gs)) ++ slice b.
Proof.
  intros H R. unfold Qof. rewrite fset_same. f_equal.
  assert (forall n g, gs <= g -> g + n <= go ->
     flat_map (fun c => slice (fset bl (go mod nb) b (c mod nb))) (seq g n) = flat_map (fun c => slice (bl (c mod nb))) (seq g n)).
  { induction n; simpl; intros g A B; auto. f_equal; [f_equal; eapply fset_mod with (gs := gs); eauto; lia|]. apply IHn; lia. }
  apply H0; lia.
Qed.
Lemma Qof_succ bl gs go : gs <= go -> slice (bl (S go mod nb)) = [] -> Qof bl gs (S go) = Qof bl gs go.
Proof.
  intros R E. unfold Qof. rewrite E, app_nil_r. replace (S go - gs) with (go - gs + 1) by lia.
  rewrite seq_app, flat_map_app. f_equal. replace (gs + (go - gs)) with go by lia. simpl. apply app_nil_r.
Qed.
Lemma Qof_start bl gs go : gs < go -> slice (bl (gs mod nb)) = [] -> Qof bl (S gs) go = Qof bl gs go.
Proof.
  intros R E. unfold Qof. replace (go - gs) with (S (go - S gs)) by lia. simpl. rewrite E. reflexivity.
Qed.
Lemma slice_nil b : tail b <= cl b -> slice b = [].
Proof. intros H. unfold slice. replace (tail b - cl b) with 0 by lia. reflexivity. Qed.
Lemma cl_owned c b : owned c b -> cl b = snd (head b).
Proof. intros [E _]. unfold cl. rewrite E. simpl. rewrite Nat.ltb_irrefl. auto. Qed.
Lemma cl_full b : snd (stail b) = bs -> cl b = snd (head b).
Proof. intros E. unfold cl. rewrite E. rewrite Nat.ltb_irrefl. auto. Qed.
Lemma free_nil c b : free c b -> slice b = [].
Proof. intros [E F]. apply slice_nil. rewrite cl_full by (rewrite E; auto). lia. Qed.

(** ** thieves *)
Definition owner_event (e : event) : bool :=
  match e with EClaim _ _ | ESteal _ _ => false | _ => true end.
Lemma holding_owner t lv l : forallb owner_event lv = true -> holding t (lv ++ l) = holding t l.
Proof. induction lv as [|e lv IH]; simpl; auto. intros H. apply andb_true_iff in H. destruct H as [A B]. destruct e; simpl in *; auto; discriminate. Qed.
Lemma tok_owner lv l bl t p : forallb owner_event lv = true -> tok l bl t p -> tok (lv ++ l) bl t p.
Proof. intros H. destruct p; simpl; rewrite holding_owner by auto; auto. Qed.

Lemma sumz_same {A} (w : A -> Z) l t p p' : nth_error l t = Some p -> w p' = w p -> sumz w (upd l t p') = sumz w l.
Proof. intros H E. rewrite (sumz_upd w l t p' H). lia. Qed.

Lemma inv_thief s gs go t p p' lv : inv s gs go -> nth_error (thr s) t = Some p ->
  (forall i, wfl i p' = wfl i p) -> (lv = [] \/ lv = [ESteal t None]) ->
  holding t (log s) = None -> tok (lv ++ log s) (blks s) t p' ->
  inv (w_log (w_thr s t p') lv) gs go.
Proof.
  intros I Ht W Hlv Hh T'.
  constructor; simpl; try apply I.
  - intros i Hi X. rewrite (sumz_same _ _ _ p' Ht (W i)). apply I; auto.
  - intros Q. rewrite (sumz_same _ _ _ p' Ht (W _)). apply I; auto.
  - intros u q Hu. rewrite (nth_upd _ _ _ _ Ht) in Hu. destruct (Nat.eqb_spec t u) as [<-|N].
    + inversion Hu; subst. auto.
    + pose proof (i_tok I _ Hu) as K. assert (E : holding u (lv ++ log s) = holding u (log s)).
      { destruct Hlv as [-> | ->]; auto. simpl. destruct (Nat.eqb_spec t u); congruence. }
      destruct q; simpl in *; rewrite E; auto.
  - destruct Hlv as [-> | ->]; simpl; [apply I|]. apply d_steal, I.
  - pose proof (i_pend I) as K. destruct Hlv as [-> | ->]; simpl; auto.
  - destruct Hlv as [-> | ->]; simpl; [apply I|]. split; [auto|apply I].
Qed.
Lemma not_owned_granted s gs go i : inv s gs go -> i < nb -> snd (stail (blks s i)) < bs ->
  exists c, gs <= c <= go /\ c mod nb = i /\ (c = go -> opc_ s = GT) /\ granted c (blks s i).
Proof.
  intros I Hi Hs. destruct (cover gs (i_nb I) Hi) as (c & R & E). exists c. subst i.
  destruct (lt_eq_lt_dec c go) as [[L|L]|L].
  - repeat split; try lia; apply (i_grant I); lia.
  - subst c. pose proof (i_cur I) as C. destruct (opc_ s); simpl in C; unfold owned, free in C;
      try (exfalso; decompose [and] C; clear C; subst; 
           match goal with H : stail _ = _ |- _ => rewrite H in Hs; simpl in Hs; lia | H : snd (stail _) = _ |- _ => lia end).
    split; [lia|]. auto.
  - exfalso. destruct (i_free I (c := c)) as [F _]; [lia|]. rewrite F in Hs. simpl in Hs. lia.
Qed.
Lemma slice_claim b : snd (stail b) < bs -> tail b = bs -> snd (head b) = bs ->
  slice b = ring b (snd (stail b)) :: slice (b_stail b (fst (stail b), S (snd (stail b)))) /\
  cl (b_stail b (fst (stail b), S (snd (stail b)))) = S (snd (stail b)) /\ cl b = snd (stail b).
Proof.
  intros A B C. assert (C1 : cl b = snd (stail b)) by (unfold cl; apply Nat.ltb_lt in A; rewrite A; auto).
  assert (C2 : cl (b_stail b (fst (stail b), S (snd (stail b)))) = S (snd (stail b))).
  { unfold cl. simpl. destruct (Nat.ltb_spec (S (snd (stail b))) bs); auto. lia. }
  split; auto. unfold slice. rewrite C1, C2. simpl tail. rewrite B.
  replace (bs - snd (stail b)) with (S (bs - S (snd (stail b)))) by lia. reflexivity.
Qed.
Lemma in_seq_split g n c : g <= c < g + n -> seq g n = seq g (c - g) ++ c :: seq (S c) (n - S (c - g)).
Proof.
  intros R. replace n with ((c - g) + S (n - S (c - g))) at 1 by lia. rewrite seq_app. simpl. do 2 f_equal; [lia|f_equal; lia].
Qed.
Lemma flat_ext (f g : nat -> list task) l : (forall x, In x l -> f x = g x) -> flat_map f l = flat_map g l.
Proof. induction l; simpl; intros H; auto. rewrite H, IHl; auto. Qed.

Lemma inv_claim s gs go t th sp : inv s gs go -> nth_error (thr s) t = Some (TC th sp) ->
  stail (blks s (snd th)) = sp ->
  inv (w_log (w_thr (w_blk s (snd th) (fun b => b_stail b (fst sp, S (snd sp)))) t (TR (snd th) (snd sp)))
         [EClaim t (ring (blks s (snd th)) (snd sp))]) gs go.
Proof.
  intros I Ht E. pose proof (i_tok I _ Ht) as T. simpl in T. destruct T as (T1 & T2 & T3).
  set (i := snd th) in *. destruct (not_owned_granted I T1) as (c & R & Ec & Gc & G); [rewrite E; auto|].
  destruct G as (G1 & G2 & G3). set (b := blks s i) in *. set (b' := b_stail b (fst sp, S (snd sp))).
  destruct (@slice_claim b) as (S1 & S2 & S3); [rewrite E; auto|auto|rewrite G1; auto|].
  rewrite E in S1, S2, S3. fold b' in S1, S2.
  assert (GB : granted c b').
  { repeat split; auto. simpl. rewrite <- G3, E. auto. }
  constructor; simpl; unfold w_blk; simpl.
  - apply I.
  - apply I.
  - apply I.
  - apply I.
  - apply I.
  - intros d Hd. unfold fset. destruct (Nat.eqb_spec (d mod nb) i) as [Ed|Nd]; [|apply I; auto].
    assert (d = c) as -> by (eapply mod_inj with (g := gs); eauto; try apply I; destruct (i_rng I); lia). exact GB.
  - intros d Hd. unfold fset. destruct (Nat.eqb_spec (d mod nb) i) as [Ed|Nd]; [|apply I; auto].
    exfalso. assert (d = c) by (eapply mod_inj with (g := gs); eauto; try apply I; destruct (i_rng I); lia). lia.
  - unfold fset. destruct (Nat.eqb_spec (go mod nb) i) as [Ed|Nd]; [|apply I].
    assert (c = go) by (eapply mod_inj with (g := gs); eauto; try apply I; destruct (i_rng I); lia).
    subst c. rewrite (Gc eq_refl). exact GB.
  - pose proof (i_near I) as K. destruct (opc_ s); simpl in *; auto. destruct K as [K1 K2]. split; auto.
    unfold fset. destruct (Nat.eqb_spec (S go mod nb) i) as [Ed|Nd]; auto. exfalso. destruct K2 as [K2 _]. rewrite Ed in K2.
    fold b in K2. rewrite E in K2. subst sp. rewrite K2 in T2. simpl in T2. lia.
  - intros j Hj. unfold fset. destruct (Nat.eqb_spec j i); [|apply I; auto].
    fold b. fold b'. unfold wfb. rewrite S2. simpl. rewrite G1, G2. simpl. repeat split; lia.
  - intros j Hj X. rewrite (sumz_upd _ _ _ _ Ht). cbn [wfl]. pose proof (i_cnt I Hj X) as K. unfold fset.
    rewrite (Nat.eqb_sym j i). destruct (Nat.eqb_spec i j) as [<-|N]; [|lia].
    fold b in K |- *. fold b'. rewrite S2. rewrite S3 in K. simpl scount. lia.
  - intros Q. rewrite (sumz_upd _ _ _ _ Ht). cbn [wfl]. pose proof (i_fl0 I Q) as K.
    destruct (Nat.eqb_spec i (go mod nb)) as [Ei|]; [|lia]. exfalso.
    assert (c = go) by (eapply mod_inj with (g := gs); eauto; try apply I; destruct (i_rng I); try lia; congruence).
    subst c. rewrite (Gc eq_refl) in Q. discriminate.
  - intros u q Hu. rewrite (nth_upd _ _ _ _ Ht) in Hu. destruct (Nat.eqb_spec t u) as [<-|N].
    + inversion Hu; subst q. simpl. rewrite fset_same, Nat.eqb_refl. fold b. fold b'. rewrite S2. repeat split; auto.
    + pose proof (i_tok I _ Hu) as K.
      assert (F : (t =? u) = false) by (apply Nat.eqb_neq; auto).
      destruct q; simpl in *; rewrite ?F; auto. unfold fset. destruct (Nat.eqb_spec i0 i) as [->|]; auto.
      fold b in K |- *. fold b'. rewrite S2. rewrite S3 in K. simpl. destruct K as (K1 & K2 & K3). repeat split; auto.
  - assert (D : exists q1 q2, Qof (blks s) gs go = q1 ++ ring b (snd sp) :: q2 /\ Qof (fset (blks s) i b') gs go = q1 ++ q2).
    { unfold Qof. destruct (Nat.eq_dec c go) as [->|Nc].
      - exists (flat_map (fun c => slice (blks s (c mod nb))) (seq gs (go - gs))), (slice b'). rewrite Ec. fold b. rewrite S1. split; auto.
        rewrite fset_same. f_equal. apply flat_ext. intros x Hx. apply in_seq in Hx. f_equal. rewrite <- Ec.
        eapply fset_mod with (gs := gs); try apply I; destruct (i_rng I); lia.
      - rewrite (@in_seq_split gs (go - gs) c) by lia.
        rewrite !flat_map_app. cbn [flat_map]. rewrite Ec, fset_same. fold b. rewrite S1.
        eexists. eexists. split; [rewrite <- app_assoc; simpl; rewrite <- app_assoc; reflexivity|].
        rewrite <- !app_assoc. f_equal; [|f_equal; f_equal].
        + apply flat_ext. intros x Hx. apply in_seq in Hx. f_equal. rewrite <- Ec.
          eapply fset_mod with (gs := gs); try apply I; destruct (i_rng I); lia.
        + apply flat_ext. intros x Hx. apply in_seq in Hx. f_equal. rewrite <- Ec.
          eapply fset_mod with (gs := gs); try apply I; destruct (i_rng I); lia.
        + f_equal. rewrite <- Ec. eapply fset_mod with (gs := gs); try apply I; destruct (i_rng I); lia. }
    destruct D as (q1 & q2 & D1 & D2). fold b. fold b'. rewrite D2. apply d_claim. rewrite <- D1. apply I.
  - pose proof (i_pend I) as K. destruct (opc_ s); simpl in *; auto.
  - split; [auto|apply I].
Qed.
Lemma inv_count s gs go t i v : inv s gs go -> nth_error (thr s) t = Some (TN i v) ->
  inv (w_log (w_thr (w_blk s i (fun b => b_scount b (S (scount b)))) t TIdle) [ESteal t (Some v)]) gs go.
Proof.
  intros I Ht. pose proof (i_tok I _ Ht) as T. simpl in T. destruct T as (T1 & T2).
  assert (EB : forall j, fset (blks s) i (b_scount (blks s i) (S (scount (blks s i)))) j =
    if j =? i then b_scount (blks s j) (S (scount (blks s j))) else blks s j).
  { intros j. unfold fset. destruct (Nat.eqb_spec j i); subst; auto. }
  constructor; simpl; unfold w_blk; simpl; try apply I.
  - intros c Hc. rewrite EB. destruct (_ =? i); apply (i_grant I Hc).
  - intros c Hc. rewrite EB. destruct (_ =? i); apply (i_free I Hc).
  - rewrite EB. pose proof (i_cur I) as C. destruct (_ =? i); auto.
  - pose proof (i_near I) as C. destruct (opc_ s); simpl in *; auto. rewrite EB. destruct (_ =? i); auto.
  - intros j Hj. rewrite EB. pose proof (i_wf I Hj). destruct (j =? i); auto.
  - intros j Hj X. rewrite EB, (sumz_upd _ _ _ _ Ht). cbn [wfl]. pose proof (i_cnt I Hj X) as K. rewrite (Nat.eqb_sym i j).
    destruct (Nat.eqb_spec j i); [|lia]. change (cl (b_scount (blks s j) (S (scount (blks s j))))) with (cl (blks s j)). simpl scount. lia.
  - intros Q. rewrite (sumz_upd _ _ _ _ Ht). cbn [wfl]. pose proof (i_fl0 I Q) as K.
    pose proof (sumz_ge _ (thr s) (wfl_nonneg (go mod nb)) _ Ht) as G. cbn [wfl] in G. destruct (_ =? _); lia.
  - intros u q Hu. rewrite (nth_upd _ _ _ _ Ht) in Hu. destruct (Nat.eqb_spec t u) as [<-|N].
    + inversion Hu; subst q. simpl. rewrite Nat.eqb_refl. auto.
    + pose proof (i_tok I _ Hu) as K. assert (F : (t =? u) = false) by (apply Nat.eqb_neq; auto).
      destruct q; simpl in *; rewrite ?F; auto. rewrite EB. destruct (i0 =? i); auto.
  - apply d_steal. erewrite Qof_ext; [apply I|destruct (i_rng I); auto|]. intros c Hc. rewrite EB. destruct (_ =? i); auto.
  - split; [auto|apply I].
Qed.
Lemma enc_ix c : 0 < nb -> snd (enc c) < nb.
Proof. intros H. simpl. apply Nat.mod_upper_bound. lia. Qed.
Lemma inv_tstep s gs go t a s' : inv s gs go -> tstep nb bs t a s = Some s' -> inv s' gs go.
Proof.
  intros I E. unfold tstep in E. destruct (nth_error (thr s) t) as [p|] eqn:Ht; [|discriminate].
  pose proof (i_tok I _ Ht) as T. destruct a, p; try discriminate; simpl in T.
  - inversion E; subst. apply (@inv_thief _ _ _ _ _ (TL (start s)) [] I Ht); auto. simpl. rewrite (i_start I). split; auto. apply enc_ix, I.
  - destruct T as [T1 T2]. destruct (Nat.eqb_spec (snd (stail (blks s (snd thief)))) bs) as [Eb|Nb].
    + destruct (_ =? _)%N; inversion E; subst.
      * apply (@inv_thief _ _ _ _ _ (TA thief) [] I Ht); simpl; auto.
      * apply (@inv_thief _ _ _ _ _ TIdle [ESteal t None] I Ht); simpl; auto. rewrite Nat.eqb_refl. auto.
    + inversion E; subst. apply (@inv_thief _ _ _ _ _ (TT thief _) [] I Ht); simpl; auto.
      split; auto. split; auto. destruct (i_wf I T1). lia.
  - destruct T as (T1 & T2 & T3). destruct (_ =? _); inversion E; subst.
    + apply (@inv_thief _ _ _ _ _ TIdle [ESteal t None] I Ht); simpl; auto. rewrite Nat.eqb_refl. auto.
    + apply (@inv_thief _ _ _ _ _ (TC thief spos) [] I Ht); simpl; auto.
  - destruct T as (T1 & T2 & T3). destruct (word_eqb (stail (blks s (snd thief))) spos) eqn:Q; inversion E; subst.
    + apply word_eqb_eq in Q. apply (@inv_claim _ _ _ _ _ _ I Ht Q).
    + apply (@inv_thief _ _ _ _ _ (TL thief) [] I Ht); simpl; auto.
  - destruct T as (T1 & T2 & T3). inversion E; subst.
    constructor; simpl; try apply I.
    + intros j Hj X. erewrite sumz_same; [apply (i_cnt I Hj X)|exact Ht|reflexivity].
    + intros Q. erewrite sumz_same; [apply (i_fl0 I Q)|exact Ht|reflexivity].
    + intros u q Hu. rewrite (nth_upd _ _ _ _ Ht) in Hu. destruct (Nat.eqb_spec t u) as [<-|N]; [|apply I; auto].
      inversion Hu; subst q. simpl. auto.
  - destruct T as (T1 & T2). inversion E; subst. apply (@inv_count _ _ _ _ _ _ I Ht).
  - destruct T as (T1 & T2). destruct (word_ltb _ _); inversion E; subst.
    + apply (@inv_thief _ _ _ _ _ (TL (increase nb thief)) [] I Ht); auto. simpl. split; auto.
      unfold next_ix. pose proof (i_nb I). destruct (Nat.eqb_spec (S (snd thief)) nb); lia.
    + apply (@inv_thief _ _ _ _ _ TIdle [ESteal t None] I Ht); simpl; auto. rewrite Nat.eqb_refl. auto.
Qed.

(** ** the owner *)
Lemma inv_cur s gs go bl' b' pc' lv own' last' :
  inv s gs go ->
  (forall i, bl' i = if i =? go mod nb then b' else blks s i) ->
  (pc' <> OIdle -> own' = enc go) -> (last_stable pc' = true -> last' = enc go) ->
  curok pc' go b' -> nearok pc' gs go bl' -> wfb b' ->
  (exc pc' = false -> (Z.of_nat (scount b') + sumz (wfl (go mod nb)) (thr s) = Z.of_nat (cl b'))%Z) ->
  (quiet pc' = true -> sumz (wfl (go mod nb)) (thr s) = 0%Z) ->
  (sumz (wfl (go mod nb)) (thr s) = 0%Z \/
   (cl (blks s (go mod nb)) <= cl b' /\ forall x, x < cl (blks s (go mod nb)) -> ring b' x = ring (blks s (go mod nb)) x)) ->
  forallb owner_event lv = true ->
  deque (lv ++ log s) (flat_map (fun c => slice (blks s (c mod nb))) (seq gs (go - gs)) ++ slice b') ->
  ppend pc' (lv ++ log s) -> hist (lv ++ log s) ->
  inv {| blks := bl'; start := start s; last := last'; own := own'; opc_ := pc'; thr := thr s; log := lv ++ log s |} gs go.
Proof.
  intros I EB O L C Nr W K Q T V D P H.
  assert (OT : forall c, gs <= c < gs + nb -> c <> go -> bl' (c mod nb) = blks s (c mod nb)).
  { intros c R N. rewrite EB. destruct (Nat.eqb_spec (c mod nb) (go mod nb)) as [E|]; auto. exfalso. apply N.
    eapply mod_inj with (g := gs); eauto; try apply I; destruct (i_rng I); lia. }
  pose proof (i_rng I) as R.
  constructor; simpl; auto; try apply I.
  - intros c Hc. rewrite OT by lia. apply I; auto.
  - intros c Hc. rewrite OT by lia. apply I; auto.
  - rewrite EB, Nat.eqb_refl. auto.
  - intros i Hi. rewrite EB. destruct (_ =? _); auto. apply I; auto.
  - intros i Hi X. rewrite EB. destruct (Nat.eqb_spec i (go mod nb)) as [->|N].
    + apply K. destruct (exc pc'); auto. exfalso. apply X; auto.
    + apply I; auto.
  - intros t p Ht. pose proof (i_tok I _ Ht) as TT'. apply (tok_owner lv) in TT'; auto.
    destruct p; simpl in *; auto. rewrite EB. destruct (Nat.eqb_spec i (go mod nb)) as [->|N]; auto.
    destruct T as [T|[T1 T2]].
    + exfalso. pose proof (sumz_ge _ (thr s) (wfl_nonneg (go mod nb)) _ Ht) as G. cbn [wfl] in G. rewrite Nat.eqb_refl in G. lia.
    + destruct TT' as (A & B & E). repeat split; auto; [lia|]. rewrite T2 by lia. auto.
  - assert (EQ : Qof bl' gs go = flat_map (fun c => slice (blks s (c mod nb))) (seq gs (go - gs)) ++ slice b'); [|rewrite EQ; auto].
    unfold Qof. f_equal.
    + apply flat_ext. intros c Hc. apply in_seq in Hc. rewrite OT by lia. auto.
    + rewrite EB, Nat.eqb_refl. auto.
Qed.
Lemma inv_curf s gs go b' pc' lv own' last' :
  inv s gs go ->
  (pc' <> OIdle -> own' = enc go) -> (last_stable pc' = true -> last' = enc go) ->
  curok pc' go b' -> nearok pc' gs go (fset (blks s) (go mod nb) b') -> wfb b' ->
  (exc pc' = false -> (Z.of_nat (scount b') + sumz (wfl (go mod nb)) (thr s) = Z.of_nat (cl b'))%Z) ->
  (quiet pc' = true -> sumz (wfl (go mod nb)) (thr s) = 0%Z) ->
  (sumz (wfl (go mod nb)) (thr s) = 0%Z \/
   (cl (blks s (go mod nb)) <= cl b' /\ forall x, x < cl (blks s (go mod nb)) -> ring b' x = ring (blks s (go mod nb)) x)) ->
  forallb owner_event lv = true ->
  deque (lv ++ log s) (flat_map (fun c => slice (blks s (c mod nb))) (seq gs (go - gs)) ++ slice b') ->
  ppend pc' (lv ++ log s) -> hist (lv ++ log s) ->
  inv {| blks := fset (blks s) (go mod nb) b'; start := start s; last := last'; own := own'; opc_ := pc'; thr := thr s; log := lv ++ log s |} gs go.
Proof. intros I ? ? ? ? ? ? ? ? ? ? ? ?. apply inv_cur with (1 := I) (b' := b'); auto. Qed.
Lemma inv_cur0 s gs go bl' b' pc' own' last' :
  inv s gs go ->
  (forall i, bl' i = if i =? go mod nb then b' else blks s i) ->
  (pc' <> OIdle -> own' = enc go) -> (last_stable pc' = true -> last' = enc go) ->
  curok pc' go b' -> nearok pc' gs go bl' -> wfb b' ->
  (exc pc' = false -> (Z.of_nat (scount b') + sumz (wfl (go mod nb)) (thr s) = Z.of_nat (cl b'))%Z) ->
  (quiet pc' = true -> sumz (wfl (go mod nb)) (thr s) = 0%Z) ->
  (sumz (wfl (go mod nb)) (thr s) = 0%Z \/
   (cl (blks s (go mod nb)) <= cl b' /\ forall x, x < cl (blks s (go mod nb)) -> ring b' x = ring (blks s (go mod nb)) x)) ->
  deque (log s) (flat_map (fun c => slice (blks s (c mod nb))) (seq gs (go - gs)) ++ slice b') ->
  ppend pc' (log s) -> hist (log s) ->
  inv {| blks := bl'; start := start s; last := last'; own := own'; opc_ := pc'; thr := thr s; log := log s |} gs go.
Proof. intros I ? ? ? ? ? ? ? ? ? ? ? ?. eapply inv_cur with (1 := I) (lv := []); eauto. Qed.
Lemma inv_curf0 s gs go b' pc' own' last' :
  inv s gs go ->
  (pc' <> OIdle -> own' = enc go) -> (last_stable pc' = true -> last' = enc go) ->
  curok pc' go b' -> nearok pc' gs go (fset (blks s) (go mod nb) b') -> wfb b' ->
  (exc pc' = false -> (Z.of_nat (scount b') + sumz (wfl (go mod nb)) (thr s) = Z.of_nat (cl b'))%Z) ->
  (quiet pc' = true -> sumz (wfl (go mod nb)) (thr s) = 0%Z) ->
  (sumz (wfl (go mod nb)) (thr s) = 0%Z \/
   (cl (blks s (go mod nb)) <= cl b' /\ forall x, x < cl (blks s (go mod nb)) -> ring b' x = ring (blks s (go mod nb)) x)) ->
  deque (log s) (flat_map (fun c => slice (blks s (c mod nb))) (seq gs (go - gs)) ++ slice b') ->
  ppend pc' (log s) -> hist (log s) ->
  inv {| blks := fset (blks s) (go mod nb) b'; start := start s; last := last'; own := own'; opc_ := pc'; thr := thr s; log := log s |} gs go.
Proof. intros I ? ? ? ? ? ? ? ? ? ? ?. eapply inv_curf with (1 := I) (lv := []); auto. Qed.
(** nothing but the program counter (and the log) changes *)
Lemma same_bl s i : forall j, blks s j = if j =? i then blks s i else blks s j.
Proof. intros j. destruct (Nat.eqb_spec j i); subst; auto. Qed.
Lemma upd_bl s i b : forall j, fset (blks s) i b j = if j =? i then b else blks s j.
Proof. intros j. reflexivity. Qed.

Lemma deque_pushes w : forall l q, deque l q -> deque (rev (map EPush w) ++ l) (q ++ w).
Proof.
  induction w as [|v w IH]; simpl; intros l q D; [rewrite app_nil_r; auto|].
  rewrite <- app_assoc. simpl. specialize (IH _ _ (d_push _ _ v D)). rewrite <- app_assoc in IH. auto.
Qed.
Lemma pushing_pushes w : forall l vs acc, pushing l = Some (vs, acc) -> pushing (rev (map EPush w) ++ l) = Some (vs, acc ++ w).
Proof.
  induction w as [|v w IH]; simpl; intros l vs acc D; [rewrite app_nil_r; auto|].
  rewrite <- app_assoc. simpl. rewrite (IH (EPush v :: l) vs (acc ++ [v])); [rewrite <- app_assoc; auto|]. simpl. rewrite D. auto.
Qed.
Lemma hist_pushes w : forall l vs acc, pushing l = Some (vs, acc) -> hist l -> hist (rev (map EPush w) ++ l).
Proof.
  induction w as [|v w IH]; simpl; intros l vs acc D H; auto.
  rewrite <- app_assoc. simpl. apply (IH _ vs (acc ++ [v])); simpl; [rewrite D; auto|]. split; [congruence|auto].
Qed.
Lemma owner_pushes w : forallb owner_event (rev (map EPush w)) = true.
Proof. apply forallb_forall. intros x H. apply in_rev in H. apply in_map_iff in H. destruct H as (v & <- & _). auto. Qed.

Lemma cnt_cur s gs go : inv s gs go -> exc (opc_ s) = false ->
  (Z.of_nat (scount (blks s (go mod nb))) + sumz (wfl (go mod nb)) (thr s) = Z.of_nat (cl (blks s (go mod nb))))%Z.
Proof. intros I E. apply I; [apply Nat.mod_upper_bound; pose proof (i_nb I); lia|congruence]. Qed.
Lemma wf_cur s gs go : inv s gs go -> wfb (blks s (go mod nb)).
Proof. intros I. apply I. apply Nat.mod_upper_bound. pose proof (i_nb I). lia. Qed.

(** publishing w behind the tail *)
Lemma publish s gs go w : inv s gs go -> owned go (blks s (go mod nb)) ->
  tail (blks s (go mod nb)) + length w <= bs ->
  map (ring (blks s (go mod nb))) (seq (tail (blks s (go mod nb))) (length w)) = w ->
  let b' := b_tail (blks s (go mod nb)) (tail (blks s (go mod nb)) + length w) in
  cl b' = cl (blks s (go mod nb)) /\ wfb b' /\ owned go b' /\ slice b' = slice (blks s (go mod nb)) ++ w.
Proof.
  intros I O T W b'. set (b := blks s (go mod nb)) in *. destruct (wf_cur I) as (W1 & W2 & W3 & W4 & W5). fold b in W1, W2, W3, W4, W5.
  split; [reflexivity|]. split; [|split; [exact O|]].
  - unfold wfb. change (cl b') with (cl b). simpl. repeat split; try lia; intros X; destruct O as [O _]; rewrite O in X; simpl in X; lia.
  - unfold slice. change (cl b') with (cl b). simpl. replace (tail b + length w - cl b) with ((tail b - cl b) + length w) by lia.
    rewrite seq_app, map_app. f_equal. replace (cl b + (tail b - cl b)) with (tail b) by lia. auto.
Qed.

Ltac triv := first [solve [intro; apply same_bl] | solve [let j := fresh in intros j; match goal with |- context [Nat.eqb ?a ?c] => destruct (Nat.eqb_spec a c); [subst; reflexivity|reflexivity] end] | apply upd_bl | discriminate | congruence | exact Logic.I | solve [right; auto]
  | match goal with H : _ <> OIdle -> own _ = _ |- _ => solve [intros _; apply H; discriminate] end
  | match goal with H : false = false -> _ |- _ => solve [intros _; apply H; auto] end
  | match goal with H : wfb _ |- _ => exact H end].
Lemma inv_ostep s gs go a s' : inv s gs go -> ostep nb bs a s = Some s' -> exists gs' go', inv s' gs' go'.
Proof.
  intros I E. pose proof (i_nb I) as NB. pose proof (i_rng I) as RG. pose proof (i_cur I) as C. pose proof (i_near I) as NR.
  pose proof (i_pend I) as P. pose proof (i_hist I) as H. pose proof (i_deque I) as D. pose proof (wf_cur I) as WC.
  pose proof (cnt_cur I) as CC.
  assert (OW : opc_ s <> OIdle -> snd (own s) = go mod nb /\ fst (own s) = rnd go) by (intros X; rewrite (i_own I X); auto).
  assert (LS : last_stable (opc_ s) = true -> last s = enc go) by apply I.
  assert (OW' : opc_ s <> OIdle -> own s = enc go) by apply I.
  unfold ostep in E. set (b := blks s (go mod nb)) in *.
  destruct (opc_ s) as [|bulk rest w|bulk rest|bulk rest|bulk rest|bulk rest e|bulk rest|bulk rest|bulk rest|bulk rest|bulk rest| | |v| |] eqn:Epc;
    destruct a; try discriminate;
    try (destruct OW as [OW OWr]; [discriminate|]; rewrite ?OW, ?OWr in E; fold b in E); cbn [last_stable exc] in *.
  - (* push call *)
    inversion E; subst. exists gs, go.
    apply (@inv_cur s gs go (blks s) b (PW false [v] []) [EPushCall [v]] (last s) (last s) I); simpl; auto; try triv.
    + split; auto. split; [destruct WC; lia|auto].
    + apply d_call. exact D.
    + exists [v], []. auto.
  - inversion E; subst. exists gs, go.
    apply (@inv_cur s gs go (blks s) b (PW true vs []) [EPushCall vs] (last s) (last s) I); simpl; auto; try triv.
    + split; auto. split; [destruct WC; lia|auto].
    + apply d_call. exact D.
    + exists vs, []. auto.
  - inversion E; subst. exists gs, go.
    apply (@inv_cur s gs go (blks s) b GG [] (last s) (last s) I); simpl; auto; try triv.
  - (* PW *)
    simpl in C, P. destruct C as (C1 & C2 & C3). destruct P as (vs & acc & P1 & P2 & P3).
    destruct (publish I C1 C2 C3) as (U1 & U2 & U3 & U4). fold b in U1, U2, U3, U4.
    destruct rest as [|v rest].
    + inversion E; subst s'. exists gs, go. unfold w_blk. cbn.
      change (EPushRet [] :: rev (map EPush w) ++ log s) with ((EPushRet [] :: rev (map EPush w)) ++ log s).
      rewrite ?OW. eapply inv_curf with (1 := I); auto; try triv.
      * simpl. rewrite owner_pushes. auto.
      * simpl. apply d_ret. fold b. rewrite U4, app_assoc. apply deque_pushes. exact D.
      * simpl. auto.
      * simpl. split; [exists vs, (acc ++ w); split; [apply pushing_pushes; auto|rewrite app_nil_r; rewrite app_nil_r in P2; auto]|eapply hist_pushes; eauto].
    + destruct ((tail b + length w <? bs) && (bulk || (length w =? 0))) eqn:F.
      * apply andb_true_iff in F. destruct F as [F1 F2]. apply Nat.ltb_lt in F1.
        inversion E; subst s'. exists gs, go. unfold w_blk. cbn. rewrite ?OW.
        assert (RW : forall x, x < tail b -> fset (ring b) (tail b + length w) v x = ring b x) by (intros x X; apply fset_other; lia).
        assert (SL : slice (b_ring b (tail b + length w) v) = slice b).
        { unfold slice. change (cl (b_ring b (tail b + length w) v)) with (cl b). simpl. apply map_ext_in. intros x Hx. apply in_seq in Hx.
          apply RW. destruct WC as (_ & _ & _ & WC & _). fold b in WC. lia. }
        eapply inv_curf0 with (1 := I); auto; fold b; try triv.
        -- simpl. split; [exact C1|]. rewrite app_length. simpl. split; [lia|]. rewrite Nat.add_1_r. rewrite seq_S, map_app. simpl.
           f_equal; [|rewrite fset_same; auto]. rewrite <- C3 at 3. apply map_ext_in. intros x Hx. apply in_seq in Hx. apply fset_other. lia.
        -- right. change (cl (b_ring b (tail b + length w) v)) with (cl b). split; auto. intros x X. apply RW. destruct WC as (_ & _ & _ & WC & _). fold b in WC. lia.
        -- rewrite SL. exact D.
        -- simpl. exists vs, acc. rewrite <- app_assoc. auto.
      * assert (FU : bulk = true -> tail b + length w = bs).
        { intros ->. rewrite andb_true_r in F. apply Nat.ltb_ge in F. lia. }
        assert (W0 : bulk = false -> w = [] /\ tail b = bs).
        { intros ->. destruct P3 as [P3|P3]; [discriminate|]. rewrite P2, !app_length in P3. simpl in P3. destruct w; simpl in P3; [|lia]. simpl in F. rewrite andb_true_r in F. apply Nat.ltb_ge in F.
          simpl in C2. split; auto. lia. }
        destruct bulk.
        -- inversion E; subst s'. exists gs, go. unfold w_blk. cbn. rewrite ?OW.
           eapply inv_curf with (1 := I); auto; fold b; try triv.
           ++ simpl. split; [exact U3|]. apply FU; auto.
           ++ apply owner_pushes.
           ++ rewrite U4, app_assoc. apply deque_pushes. exact D.
           ++ simpl. exists vs, (acc ++ w). split; [apply pushing_pushes; auto|]. rewrite <- app_assoc. auto.
           ++ eapply hist_pushes; eauto.
        -- destruct (W0 eq_refl) as [-> TB]. inversion E; subst s'. exists gs, go. cbn.
           eapply inv_cur0 with (1 := I) (b' := b); auto; try triv.
           ++ simpl. auto.
           ++ simpl. exists vs, acc. auto.
  - (* PA *)
    simpl in C, P. destruct C as (C1 & C2). destruct P as (vs & acc & P1 & P2 & P3).
    assert (FAIL : inv (w_log (w_opc s OIdle) [EPushRet rest]) gs go).
    { eapply inv_cur with (1 := I) (b' := b); auto; try triv.
      - simpl. apply d_ret. exact D.
      - simpl. auto.
      - simpl. split; eauto. }
    rewrite next_ix_mod in E by auto.
    destruct (Nat.eqb_spec (S go mod nb) (go mod nb)) as [Ei|Ni]; [inversion E; subst; eauto|].
    destruct (word_eqb _ _) eqn:Wq; [|inversion E; subst; eauto].
    inversion E; subst s'. exists gs, go. apply word_eqb_eq in Wq.
    unfold next_owner in Wq. rewrite OW', increase_enc in Wq by (auto; discriminate). cbn [fst] in Wq.
    assert (N1 : 1 < nb). { destruct (Nat.eq_dec nb 1) as [X|]; [|lia]. exfalso. apply Ni. rewrite X, !Nat.mod_1_r. auto. }
    cbn. eapply inv_cur0 with (1 := I) (b' := b); auto; try triv.
    + simpl. auto.
    + simpl. split; auto. split; auto.
      destruct (Nat.eq_dec (S go) (gs + nb)) as [X|X].
      * rewrite X, mod_wrap by auto. destruct (i_grant I (c := gs)) as (G1 & G2 & _); [lia|]. rewrite G1, G2. auto.
      * apply (i_free I). lia.
    + simpl. eauto.
  - (* PS *)
    simpl in C, P, NR. destruct NR as [N1 N2]. rewrite next_ix_mod in E by auto. rewrite (i_start I) in E. cbn [snd enc] in E.
    destruct (Nat.eqb_spec (S go mod nb) (gs mod nb)) as [Ei|Ni].
    + assert (X : S go = gs + nb).
      { destruct (Nat.eq_dec (S go) (gs + nb)); auto. exfalso.
        assert (S go = gs) by (eapply mod_inj with (g := gs); eauto; lia). lia. }
      inversion E; subst s'. exists (S gs), go. rewrite increase_enc by auto.
      constructor; cbn; auto; try discriminate; try (intros _; apply OW'; discriminate).
      * lia.
      * intros c Hc. apply (i_grant I). lia.
      * intros c Hc. destruct (Nat.eq_dec c (S go)) as [->|]; auto. apply (i_free I). lia.
      * lia.
      * apply I.
      * intros i Hi X0. apply I; auto; try (rewrite Epc; discriminate).
      * apply I.
      * rewrite Qof_start; auto; [lia|]. rewrite <- Ei. eapply free_nil; eauto.
    + inversion E; subst s'. exists gs, go. cbn. eapply inv_cur0 with (1 := I) (b' := b); auto; try triv.
      * simpl. assert (S go <> gs + nb); [|lia]. intros X. apply Ni. rewrite X. apply mod_wrap; auto.
  - (* PG1 *)
    simpl in C, P, NR. inversion E; subst s'. exists gs, go. cbn. eapply inv_cur0 with (1 := I) (b' := b); auto; try triv.
    + simpl. destruct C as [[C0 C1] C2]. unfold owned. fold b in C0. rewrite C0. auto.
  - (* PG2 *)
    simpl in C, P, NR. destruct C as ([C0 C1] & C2 & ->). destruct WC as (W1 & W2 & W3 & W4 & W5). fold b in C0, C1, C2, W1, W2, W3, W4, W5.
    inversion E; subst s'. exists gs, (S go). unfold w_blk, next_owner. cbn. rewrite ?OW, (OW') by discriminate. rewrite increase_enc by auto.
    fold b. set (b' := b_stail (b_head b (rnd go, bs)) (head b)).
    assert (CL : cl b' = cl b).
    { unfold cl, b'. simpl. rewrite C0. simpl. rewrite Nat.ltb_irrefl. destruct (Nat.ltb_spec (snd (head b)) bs); auto. lia. }
    assert (OT : forall c, gs <= c < gs + nb -> c <> go -> fset (blks s) (go mod nb) b' (c mod nb) = blks s (c mod nb)).
    { intros c R N. eapply fset_mod; eauto. }
    constructor; cbn; auto; try discriminate; try (intros _; apply OW'; discriminate).
    + lia.
    + apply I.
    + intros c Hc. destruct (Nat.eq_dec c go) as [->|N].
      * rewrite fset_same. unfold granted, b'. simpl. auto.
      * rewrite OT by lia. apply (i_grant I). lia.
    + intros c Hc. rewrite OT by lia. apply (i_free I). lia.
    + rewrite OT by lia. apply (i_free I). lia.
    + intros i Hi. unfold fset. destruct (Nat.eqb_spec i (go mod nb)); [|apply I; auto].
      unfold wfb. rewrite CL. unfold b'. simpl. rewrite C2. repeat split; lia.
    + intros i Hi _. unfold fset. destruct (Nat.eqb_spec i (go mod nb)) as [->|].
      * rewrite CL. apply CC; auto.
      * apply I; auto; try (rewrite Epc; discriminate).
    + intros t p Ht. pose proof (i_tok I _ Ht) as T. destruct p; simpl in *; auto.
      unfold fset. destruct (Nat.eqb_spec i (go mod nb)) as [->|]; auto. fold b in T |- *. rewrite CL. auto.
    + rewrite Qof_succ; [|lia|rewrite OT by lia; apply (@free_nil (S go)); apply (i_free I); lia].
      rewrite Qof_cur by auto. replace (slice b') with (slice b); [exact D|]. unfold slice. rewrite CL. reflexivity.
  - (* PR1 *)
    simpl in C, P. destruct C as [C0 C1]. fold b in C0, C1. destruct (Nat.eqb_spec (scount b) (snd (head b))) as [Es|]; inversion E; subst s'; [|eauto].
    exists gs, go. cbn. eapply inv_cur0 with (1 := I) (b' := b); auto; try triv.
    + simpl. split; auto.
    + intros _. specialize (CC eq_refl). fold b in CC. rewrite (@cl_full b) in CC by (rewrite C0; auto). rewrite Es in CC. lia.
  - (* PR2 *)
    simpl in C, P. destruct C as [C0 C1]. fold b in C0, C1. pose proof (i_fl0 I) as F0. rewrite Epc in F0. specialize (F0 eq_refl).
    assert (SN : forall h, slice (b_tail (b_head b (h, 0)) 0) = slice b).
    { intros h. rewrite (slice_nil (b_tail (b_head b (h, 0)) 0)) by (simpl; lia). symmetry. apply (@free_nil go). split; auto. }
    inversion E; subst s'. exists gs, go. unfold w_blk. cbn. rewrite ?OW. eapply inv_curf0 with (1 := I); auto; fold b; try triv.
    + simpl. rewrite ?OWr, C0. auto.
    + unfold wfb. rewrite cl_full by (simpl; rewrite C0; auto). simpl. rewrite C0. simpl. repeat split; lia.
    + rewrite SN. exact D.
  - (* PR3 *)
    simpl in C, P. destruct C as (C0 & C1 & C2). fold b in C0, C1, C2. pose proof (i_fl0 I) as F0. rewrite Epc in F0. specialize (F0 eq_refl).
    inversion E; subst s'. exists gs, go. unfold w_blk. cbn. rewrite ?OW. eapply inv_curf0 with (1 := I); auto; fold b; try triv.
    + simpl. rewrite ?OWr. auto.
    + unfold wfb. rewrite cl_full by auto. simpl. rewrite C0, C1. simpl. repeat split; lia.
    + rewrite (slice_nil (b_stail b (rnd go, bs))) by (simpl; lia). rewrite <- (slice_nil b) by lia. exact D.
  - (* PR4 *)
    simpl in C, P. destruct C as (C0 & C1 & C2). fold b in C0, C1, C2. pose proof (i_fl0 I) as F0. rewrite Epc in F0. specialize (F0 eq_refl).
    inversion E; subst s'. exists gs, go. unfold w_blk. cbn. rewrite ?OW. eapply inv_curf0 with (1 := I); auto; fold b; try triv.
    + simpl. split; simpl; [auto|rewrite C0; auto].
    + intros _. change (cl (b_scount b 0)) with (cl b). rewrite cl_full by (rewrite C2; auto). rewrite C0. simpl. lia.
  - (* PL *)
    simpl in C, P. inversion E; subst s'. exists gs, go. cbn. eapply inv_cur0 with (1 := I) (b' := b); auto; try triv.
    + simpl. split; auto. destruct WC. split; [lia|auto].
  - (* GG *)
    simpl in C, P. destruct WC as (W1 & W2 & W3 & W4 & W5). fold b in W1, W2, W3, W4, W5. rewrite (cl_owned C) in W4. fold b in W4.
    destruct ((tail b =? 0) || (snd (head b) =? tail b)) eqn:F.
    + assert (TE : snd (head b) = tail b).
      { apply orb_true_iff in F. destruct F as [F|F]; apply Nat.eqb_eq in F; lia. }
      assert (SN : slice b = []) by (apply slice_nil; rewrite (cl_owned C); fold b; lia).
      destruct (word_eqb (start s) (own s)) eqn:Wq; inversion E; subst s'; exists gs, go; cbn.
      * apply word_eqb_eq in Wq. rewrite (i_start I), (OW') in Wq by discriminate.
        assert (go = gs) by (inversion Wq; eapply mod_inj with (g := gs); eauto; lia). subst gs.
        change (EPop None :: log s) with ([EPop None] ++ log s). eapply inv_cur with (1 := I) (b' := b); auto; try triv.
        -- unfold wfb. fold b. rewrite (cl_owned C). fold b. auto.
        -- rewrite SN. unfold Qof in D. fold b in D. rewrite SN in D. rewrite Nat.sub_diag in *. simpl in *. apply d_pop_none. auto.
        -- simpl. split; auto.
      * eapply inv_cur0 with (1 := I) (b' := b); auto; try triv.
        -- simpl. auto.
        -- simpl. destruct (Nat.eq_dec gs go) as [->|]; [|lia]. exfalso.
           rewrite (i_start I), (OW') in Wq by discriminate. rewrite (proj2 (word_eqb_eq _ _) eq_refl) in Wq. discriminate.
        -- unfold wfb. fold b. rewrite (cl_owned C). fold b. auto.
    + apply orb_false_elim in F. destruct F as [F1 F2]. apply Nat.eqb_neq in F1, F2.
      assert (HD : snd (head b) < tail b) by lia.
      inversion E; subst s'. exists gs, go. unfold w_blk. cbn. rewrite ?OW. fold b.
      change (EPop (Some (ring b (tail b - 1))) :: log s) with ([EPop (Some (ring b (tail b - 1)))] ++ log s).
      assert (SL : slice b = slice (b_tail b (tail b - 1)) ++ [ring b (tail b - 1)]).
      { unfold slice. change (cl (b_tail b (tail b - 1))) with (cl b). rewrite (cl_owned C). fold b. simpl.
        replace (tail b - snd (head b)) with (S (tail b - 1 - snd (head b))) by lia. rewrite seq_S, map_app. simpl. do 3 f_equal. lia. }
      eapply inv_curf with (1 := I); auto; fold b; try triv.
      * unfold wfb. change (cl (b_tail b (tail b - 1))) with (cl b). rewrite (cl_owned C). fold b. simpl. repeat split; try lia;
          intros X; destruct C as [C _]; fold b in C; rewrite C in X; simpl in X; lia.
      * simpl. apply d_pop. rewrite <- app_assoc, <- SL. exact D.
      * simpl. auto.
  - (* GR1 *)
    simpl in C, P, NR. inversion E; subst s'. exists gs, go. cbn. eapply inv_cur0 with (1 := I) (b' := b); auto; try triv.
    + simpl. destruct C as [[C0 C1] C2]. unfold owned. fold b in C0. rewrite C0. auto.
  - (* GR2 *)
    simpl in C, P, NR. destruct C as ([C0 C1] & C2 & ->). destruct WC as (W1 & W2 & W3 & W4 & W5). fold b in C0, C1, C2, W1, W2, W3, W4, W5.
    destruct go as [|g]; [lia|].
    inversion E; subst s'. exists gs, g. unfold w_blk. cbn. rewrite ?OW, (OW') by discriminate. rewrite decrease_enc by auto.
    fold b. set (b' := b_stail b (sub1 (rnd (S g)), bs)).
    assert (CL : cl b' = cl b).
    { rewrite !cl_full; auto. rewrite C0. auto. }
    assert (OT : forall c, gs <= c < gs + nb -> c <> S g -> fset (blks s) (S g mod nb) b' (c mod nb) = blks s (c mod nb)).
    { intros c R N. eapply fset_mod; eauto. }
    assert (FR : free (S g) b') by (split; auto).
    constructor; cbn; auto; try discriminate; try (intros _; apply OW'; discriminate).
    + lia.
    + apply I.
    + intros c Hc. rewrite OT by lia. apply (i_grant I). lia.
    + intros c Hc. destruct (Nat.eq_dec c (S g)) as [->|N].
      * rewrite fset_same. auto.
      * rewrite OT by lia. apply (i_free I). lia.
    + rewrite OT by lia. apply (i_grant I). lia.
    + intros i Hi. unfold fset. destruct (Nat.eqb_spec i (S g mod nb)); [|apply I; auto].
      unfold wfb. rewrite CL. unfold b'. simpl. repeat split; lia.
    + intros i Hi _. unfold fset. destruct (Nat.eqb_spec i (S g mod nb)) as [->|].
      * rewrite CL. apply CC; auto.
      * apply I; auto; try (rewrite Epc; discriminate).
    + intros t p Ht. pose proof (i_tok I _ Ht) as T. destruct p; simpl in *; auto.
      unfold fset. destruct (Nat.eqb_spec i (S g mod nb)) as [->|]; auto. fold b in T |- *. rewrite CL. auto.
    + rewrite <- (@Qof_succ _ gs g); [|lia|rewrite fset_same; eapply free_nil; eauto].
      rewrite Qof_cur by auto. replace (slice b') with (slice b); [exact D|]. unfold slice. rewrite CL. reflexivity.
  - (* GT *)
    simpl in C, P. destruct C as (C0 & C1 & C2). destruct WC as (W1 & W2 & W3 & W4 & W5). fold b in C0, C1, C2, W1, W2, W3, W4, W5.
    assert (CL : cl (b_head (b_stail b (head b)) (stail b)) = cl b).
    { unfold cl. simpl. rewrite C0. simpl. rewrite Nat.ltb_irrefl. destruct (Nat.ltb_spec (snd (stail b)) bs); auto. lia. }
    inversion E; subst s'. exists gs, go. unfold w_blk. cbn. rewrite ?OW. eapply inv_curf0 with (1 := I); auto; fold b; try triv.
    + simpl. split; auto.
    + unfold wfb. rewrite CL. simpl. rewrite C0, C1. simpl. repeat split; lia.
    + intros _. rewrite CL. apply CC; auto.
    + right. rewrite CL. auto.
    + replace (slice (b_head (b_stail b (head b)) (stail b))) with (slice b); [exact D|]. unfold slice. rewrite CL. reflexivity.
  - (* GL *)
    simpl in C, P. inversion E; subst s'. exists gs, go. cbn. eapply inv_cur0 with (1 := I) (b' := b); auto; try triv.
Qed.

Lemma inv_init rg k : 0 < nb -> inv (init bs rg k) 0 0.
Proof.
  intros NB. unfold init.
  assert (S0 : forall w : tpc -> Z, w TIdle = 0%Z -> sumz w (repeat TIdle k) = 0%Z) by (intros; apply sumz_repeat; auto).
  assert (E0 : enc 0 = (0%N, 0)).
  { unfold enc, rnd. rewrite Nat.div_0_l, Nat.mod_0_l by lia. reflexivity. }
  assert (R0 : forall c, c < nb -> rnd c = 0%N /\ c mod nb = c).
  { intros c Hc. unfold rnd. rewrite Nat.div_small, Nat.mod_small by auto. auto. }
  constructor; cbn [blks start last own opc_ thr log]; auto; try discriminate; try (intros; congruence).
  - lia.
  - intros c Hc. destruct (R0 c) as [R1 R2]; [lia|]. rewrite R2. rewrite fset_other by lia. unfold free, new_blk. simpl. rewrite R1. auto.
  - rewrite Nat.mod_0_l by lia. rewrite fset_same. destruct (R0 0 NB) as [R1 _]. unfold owned. simpl. unfold owned. simpl. rewrite R1. auto.
  - exact Logic.I.
  - intros i Hi. unfold fset. destruct (i =? 0); unfold wfb, cl; simpl; rewrite Nat.ltb_irrefl; simpl; repeat split; lia.
  - intros i Hi _. rewrite S0 by reflexivity. unfold fset. destruct (i =? 0); unfold cl; simpl; rewrite Nat.ltb_irrefl; simpl; lia.
  - intros t p Ht. apply nth_repeat_some in Ht. subst p. reflexivity.
  - unfold Qof. rewrite Nat.sub_diag, Nat.mod_0_l by lia. rewrite fset_same. rewrite slice_nil; [constructor|]. simpl. lia.
  - reflexivity.
  - exact Logic.I.
Qed.
Lemma reachable_inv s : reachable nb bs s -> exists gs go, inv s gs go.
Proof.
  induction 1 as [rg k NB|s a s' R [gs [go I]] E|s t a s' R [gs [go I]] E].
  - exists 0, 0. apply inv_init; auto.
  - eapply inv_ostep; eauto.
  - exists gs, go. eapply inv_tstep; eauto.
Qed.
Definition ev_lt (n : nat) (e : event) : Prop := match e with EClaim t _ | ESteal t _ => t < n | _ => True end.
Lemma ev_owner n w : Forall (ev_lt n) (rev (map EPush w)).
Proof. apply Forall_forall. intros e H. apply in_rev, in_map_iff in H. destruct H as (v & <- & _). exact Logic.I. Qed.
Lemma reachable_tids s : reachable nb bs s -> Forall (ev_lt (length (thr s))) (log s).
Proof.
  induction 1 as [rg k NB|s a s' R IH E|s t a s' R IH E].
  - constructor.
  - unfold ostep in E. destruct a, (opc_ s); try discriminate;
      repeat match type of E with
      | context [match ?x with [] => _ | _ :: _ => _ end] => destruct x
      | context [if ?x then _ else _] => destruct x
      end; inversion E; subst; cbn; repeat (constructor; auto; try exact Logic.I);
      try (apply Forall_app; split; auto; apply ev_owner);
      try (match goal with |- context [if ?x then _ else _] => destruct x end; auto); auto.
  - unfold tstep in E. destruct (nth_error (thr s) t) as [p|] eqn:Ht; [|discriminate].
    assert (t < length (thr s)) by (apply nth_error_Some; congruence).
    destruct a, p; try discriminate; repeat match type of E with context [if ?x then _ else _] => destruct x end;
      inversion E; subst; cbn; rewrite upd_length; repeat (constructor; auto); auto.
Qed.

End Params.
