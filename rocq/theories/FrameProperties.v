(** C75: the memory of task frames. *)
From Coq Require Import List ZArith Bool Lia.
From Verif Require Import FrameModel.
Import ListNotations.
Set Implicit Arguments.
Open Scope Z_scope.
Local Opaque Z.mul.

(** ** Specification, over the log (newest first) *)

(** Who returned the memory at a, and how much, if it was not given back. *)
Fixpoint live (l : list ev) (a : Z) : option (nat * Z) :=
  match l with
  | [] => None
  | EUpAlloc al a' n :: r => if a' =? a then Some (al, n) else live r a
  | EUpFree _ a' _ :: r => if a' =? a then None else live r a
  | _ :: r => live r a
  end.
(** The allocator of which a copy is alive at x. *)
Fixpoint copyat (l : list ev) (x : Z) : option nat :=
  match l with
  | [] => None
  | EStore al x' _ :: r => if x' =? x then Some al else copyat r x
  | EDrop _ x' :: r => if x' =? x then None else copyat r x
  | _ :: r => copyat r x
  end.
(** Every block goes back to the allocator it came from, with its size, once; every copy of an allocator is destroyed once,
    and before its memory is given back; nothing is used that is not there;
    a frame and the copy of the allocator behind it fit into the memory obtained for them and do not overlap. *)
Fixpoint proper (l : list ev) : Prop :=
  match l with
  | [] => True
  | EUpFree al a n :: r => live r a = Some (al, n) /\ (forall x, a <= x < a + 16 * n -> copyat r x = None) /\ proper r
  | EDrop al x :: r => copyat r x = Some al /\ proper r
  | EStore al x sz :: r => copyat r x = None /\ proper r
  | EFrame p bytes :: EStore al x sz :: EUpAlloc al' a n :: r =>
      (p = a /\ al' = al /\ p + bytes <= x /\ x + sz <= a + 16 * n /\ p mod 16 = 0 /\ x mod 16 = 0) /\ copyat r x = None /\ live r a = None /\ proper r
  | EFrame _ _ :: _ => False
  | EUpAlloc al a n :: r => live r a = None /\ proper r
  | EThrow :: r => proper r
  | EBad :: _ => False
  end.

(** ** Arithmetic *)
Lemma w64_id x : 0 <= x < 2 ^ 64 -> w64 x = x.
Proof. intros. apply Z.mod_small; auto. Qed.

Lemma divmod_range t : 0 <= t < 2 ^ 64 -> t <= 16 * divmod t blk < t + 16 /\ 0 <= divmod t blk < 2 ^ 60 + 1.
Proof.
  intros R. unfold divmod, blk. pose proof (Z.div_mod t 16 ltac:(lia)). pose proof (Z.mod_pos_bound t 16 ltac:(lia)).
  destruct (Z.eqb_spec (t mod 16) 0); rewrite w64_id; lia.
Qed.

(** The number of blocks is the least that holds the bytes, for every size, without overflow. *)
Theorem frame_blocks_exact t : 0 <= t < 2 ^ 64 -> forall n, t <= 16 * n <-> divmod t blk <= n.
Proof. intros R n. pose proof (divmod_range R). lia. Qed.

(** ** Invariant *)
Definition hloc (p bytes : Z) : Z := p + 16 * divmod bytes blk.
Record inv (s : st) : Prop := {
  i_proper : proper (log s);
  i_range : forall a n al, In (a, n, al) (blocks s) -> 0 < a /\ a + 16 * n <= 2 ^ 64 /\ 0 < n;
  i_disj : forall a n al a' n' al', In (a, n, al) (blocks s) -> In (a', n', al') (blocks s) -> a <> a' -> a + 16 * n <= a' \/ a' + 16 * n' <= a;
  i_live : forall a n al, live (log s) a = Some (al, n) <-> In (a, n, al) (blocks s);
  i_frame : forall p bytes, In (p, bytes) (frames s) -> 0 <= bytes < 2 ^ 64 /\ exists al sz, 0 < sz < 2 ^ 32 /\
      objs s (hloc p bytes) = Some (mkh al sz) /\ In (p, divmod bytes blk + divmod sz blk, al) (blocks s);
  i_uniq : forall p b b', In (p, b) (frames s) -> In (p, b') (frames s) -> b = b';
  i_block : forall a n al, In (a, n, al) (blocks s) -> exists b, In (a, b) (frames s);
  i_copy : forall x al, copyat (log s) x = Some al <-> exists p b sz, In (p, b) (frames s) /\ x = hloc p b /\ objs s x = Some (mkh al sz)
}.

Arguments i_range {s} _ _ _ _ _.
Arguments i_disj {s} _ _ _ _ _ _ _ _ _ _.
Arguments i_live {s} _ _ _ _.
Arguments i_frame {s} _ _ _ _.
Arguments i_uniq {s} _ _ _ _ _ _.
Arguments i_block {s} _ _ _ _ _.
Arguments i_copy {s} _ _ _.

Lemma inv_init : inv init.
Proof.
  constructor; simpl; auto; try (intros; contradiction); try (split; [discriminate|contradiction]).
  intros; split; [discriminate|]. intros (p & b & sz & [] & _).
Qed.

(** Where the copy behind a frame is, within the block of the frame. *)
Lemma frame_place s p b : inv s -> In (p, b) (frames s) ->
  exists al sz n, In (p, n, al) (blocks s) /\ 0 < sz < 2 ^ 32 /\ objs s (hloc p b) = Some (mkh al sz) /\ n = divmod b blk + divmod sz blk /\
    p + b <= hloc p b /\ hloc p b + sz <= p + 16 * n /\ 0 < p /\ p + 16 * n <= 2 ^ 64 /\ 0 <= b < 2 ^ 64 /\ hloc p b < p + 16 * n /\ p <= hloc p b.
Proof.
  intros I H. destruct (i_frame I _ _ H) as (Rb & al & sz & Rs & O & B). exists al, sz, (divmod b blk + divmod sz blk).
  destruct (i_range I _ _ _ B) as (A1 & A2 & A3).
  pose proof (divmod_range Rb) as [D1 D2]. assert (Rs' : 0 <= sz < 2 ^ 64) by lia. pose proof (divmod_range Rs') as [E1 E2].
  unfold hloc in *. repeat match goal with |- _ /\ _ => split end; auto; lia.
Qed.

(** Blocks with the same start are the same. *)
Lemma block_fun s a n al n' al' : inv s -> In (a, n, al) (blocks s) -> In (a, n', al') (blocks s) -> n = n' /\ al = al'.
Proof. intros I A B. apply (i_live I) in A. apply (i_live I) in B. rewrite A in B. inversion B; auto. Qed.

Lemma isframe_in s p b : isframe s p b = true <-> In (p, b) (frames s).
Proof.
  unfold isframe. rewrite existsb_exists. split.
  - intros ([p' b'] & H & E). apply andb_true_iff in E. rewrite !Z.eqb_eq in E. simpl in E. destruct E; subst; auto.
  - intros H. exists (p, b). simpl. rewrite !Z.eqb_refl. auto.
Qed.

Arguments frame_place {s p b} _ _.
Lemma hloc_inj s p b p' b' : inv s -> In (p, b) (frames s) -> In (p', b') (frames s) -> hloc p b = hloc p' b' -> p = p' /\ b = b'.
Proof.
  intros I A B E. destruct (frame_place I A) as (al & sz & n & B1 & _ & _ & _ & _ & _ & _ & _ & _ & X1 & X2).
  destruct (frame_place I B) as (al' & sz' & n' & B2 & _ & _ & _ & _ & _ & _ & _ & _ & Y1 & Y2).
  assert (p = p') by (destruct (Z.eq_dec p p'); auto; exfalso; match goal with N : p <> p' |- _ => destruct (i_disj I _ _ _ _ _ _ B1 B2 N) end; lia).
  subst. split; auto. eapply i_uniq; eauto.
Qed.

Arguments hloc_inj {s p b p' b'} _ _ _ _.
Arguments block_fun {s a n al n' al'} _ _ _.
Lemma step_inv s l s' : inv s -> step s l = Some s' -> inv s'.
Proof.
  intros I H. destruct l as [al sz bytes a|al sz bytes|p bytes off|p bytes]; simpl in H.
  - (* new *)
    match type of H with (if ?b then _ else _) = _ => destruct b eqn:E; [|discriminate] end. inversion H; subst; clear H.
    rewrite !andb_true_iff in E. destruct E as ((((S1 & S2) & B1) & B2) & M).
    apply Z.ltb_lt in S1. apply Z.ltb_lt in S2. apply Z.leb_le in B1. apply Z.ltb_lt in B2.
    pose proof (divmod_range (conj B1 B2)) as [D1 D2]. assert (Rs : 0 <= sz < 2 ^ 64) by lia. pose proof (divmod_range Rs) as [E1 E2].
    unfold op_new. rewrite w64_id in M by lia. rewrite (@w64_id (divmod bytes blk + divmod sz blk)) by lia.
    set (n := divmod bytes blk + divmod sz blk) in *. assert (N0 : 0 < n) by lia.
    unfold mayreturn in M. rewrite !andb_true_iff in M. destruct M as (((M1 & M2) & M3) & M4). change blk with 16 in M2, M3.
    apply Z.ltb_lt in M1. apply Z.eqb_eq in M2. apply Z.leb_le in M3. rewrite forallb_forall in M4.
    assert (DJ : forall a' n' al', In (a', n', al') (blocks s) -> a + 16 * n <= a' \/ a' + 16 * n' <= a).
    { intros a' n' al' Hb. specialize (M4 _ Hb). cbv beta iota delta [disj] in M4. apply orb_true_iff in M4. rewrite !Z.leb_le in M4. unfold blk in M4. lia. }
    assert (FA : forall n' al', ~ In (a, n', al') (blocks s)).
    { intros n' al' Hb. pose proof (DJ _ _ _ Hb). destruct (i_range I _ _ _ Hb). lia. }
    assert (L : w64 (a + blk * divmod bytes blk) = hloc a bytes) by (unfold hloc, blk in *; apply w64_id; lia). rewrite L.
    assert (HL : a + bytes <= hloc a bytes /\ hloc a bytes + sz <= a + 16 * n /\ hloc a bytes < a + 16 * n /\ a <= hloc a bytes) by (unfold hloc; lia).
    assert (HM : hloc a bytes mod 16 = 0) by (unfold hloc; rewrite Z.mul_comm, Z.mod_add by lia; auto).
    assert (NF : forall b, ~ In (a, b) (frames s)).
    { intros b Hb. destruct (frame_place I Hb) as (al' & sz' & n' & B & _). eapply FA; eauto. }
    assert (OB : forall p b, In (p, b) (frames s) -> hloc p b <> hloc a bytes).
    { intros p b Hb E. destruct (frame_place I Hb) as (al' & sz' & n' & B & _ & _ & _ & _ & _ & _ & _ & _ & X1 & X2).
      pose proof (DJ _ _ _ B). lia. }
    assert (CN : copyat (log s) (hloc a bytes) = None).
    { destruct (copyat (log s) (hloc a bytes)) as [x|] eqn:C; auto. apply (i_copy I) in C. destruct C as (p & b & sz' & Hb & E & _).
      exfalso. eapply OB; eauto. }
    assert (LN : live (log s) a = None).
    { destruct (live (log s) a) as [[x y]|] eqn:C; auto. apply (i_live I) in C. exfalso. eapply FA; eauto. }
    constructor; simpl.
    + split; [|split; [exact CN|split; [exact LN|apply (i_proper I)]]].
      repeat match goal with |- _ /\ _ => split end; auto; try lia.
    + intros a' n' al' [H|H]; [inversion H; subst; lia|eapply i_range; eauto].
    + intros a1 n1 al1 a2 n2 al2 [H|H] [H'|H'] N; try (inversion H; subst); try (inversion H'; subst); try congruence.
      * apply (DJ _ _ _ H').
      * destruct (DJ _ _ _ H); auto.
      * eapply i_disj; eauto.
    + intros a' n' al'. destruct (Z.eqb_spec a a') as [->|N].
      * split; [intros X; inversion X; auto|]. intros [X|X]; [inversion X; auto|exfalso; eapply FA; eauto].
      * rewrite (i_live I). split; [auto|]. intros [X|X]; [inversion X; congruence|auto].
    + intros p b [H|H].
      * inversion H; subst p b. split; [lia|]. exists al, sz. unfold put. rewrite Z.eqb_refl. auto.
      * destruct (i_frame I _ _ H) as (R & al' & sz' & Rs' & O & B). split; auto. exists al', sz'. repeat split; auto; try lia.
        unfold put. destruct (Z.eqb_spec (hloc p b) (hloc a bytes)) as [E|E]; auto. exfalso; eapply OB; eauto.
    + intros p b b' [H|H] [H'|H']; try (inversion H; subst); try (inversion H'; subst); auto; try (exfalso; eapply NF; eauto; fail). eapply i_uniq; eauto.
    + intros a' n' al' [H|H]; [inversion H; subst; eauto|]. destruct (i_block I _ _ _ H) as (b & Hb). eauto.
    + intros x al'. unfold put. rewrite (Z.eqb_sym x). destruct (Z.eqb_spec (hloc a bytes) x) as [<-|N].
      * split; [intros X; inversion X; subst; exists a, bytes, sz; auto|].
        intros (p & b & sz' & [X|X] & Y & Z0); [|exfalso; eapply OB; eauto]. inversion Z0; auto.
      * rewrite (i_copy I). split; intros (p & b & sz' & X & Y & Z0).
        -- exists p, b, sz'. auto.
        -- destruct X as [X|X]; [inversion X; subst; congruence|]. exists p, b, sz'. auto.
  - inversion H; subst. destruct I. constructor; simpl; auto.
  - (* write *)
    destruct (isframe s p bytes && (0 <=? off) && (off <? bytes)) eqn:E; inversion H; subst; clear H.
    rewrite !andb_true_iff in E. destruct E as ((F & O1) & O2). apply isframe_in in F. apply Z.leb_le in O1. apply Z.ltb_lt in O2.
    assert (K : forall q b, In (q, b) (frames s) -> scribble (objs s) (p + off) (hloc q b) = objs s (hloc q b)).
    { intros q b Hq. unfold scribble. destruct (frame_place I Hq) as (al & sz & n & B & Rs & O & En & P1 & P2 & P3 & P4 & P5 & P6 & P7).
      rewrite O. simpl. destruct (frame_place I F) as (al' & sz' & n' & B' & _ & _ & _ & Q1 & Q2 & _ & _ & _ & Q3 & _).
      destruct (Z.leb_spec (hloc q b) (p + off)); auto. destruct (Z.ltb_spec (p + off) (hloc q b + sz)); auto. exfalso.
      destruct (Z.eq_dec p q) as [->|N].
      - assert (b = bytes) by (eapply i_uniq; eauto). subst. lia.
      - destruct (i_disj I _ _ _ _ _ _ B' B N); lia. }
    destruct I. constructor; simpl; auto.
    + intros q b Hq. rewrite (K _ _ Hq). auto.
    + intros x al. rewrite i_copy0. split; intros (q & b & sz & Hq & -> & O); exists q, b, sz; rewrite (K _ _ Hq) in *; auto.
  - (* delete *)
    destruct (isframe s p bytes) eqn:E; inversion H; subst; clear H. apply isframe_in in E.
    destruct (frame_place I E) as (al & sz & n & B & Rs & O & En & P1 & P2 & P3 & P4 & P5 & P6 & P7).
    pose proof (divmod_range P5) as [D1 D2]. assert (Rs' : 0 <= sz < 2 ^ 64) by lia. pose proof (divmod_range Rs') as [E1 E2].
    unfold op_delete, deallocate.
    assert (L : w64 (p + blk * divmod bytes blk) = hloc p bytes) by (unfold hloc, blk in *; apply w64_id; lia). rewrite L. simpl objs. rewrite O, Z.eqb_refl. simpl.
    rewrite w64_id by lia. rewrite <- En. unfold upfree. simpl.
    assert (FI : forall q b, In (q, b) (filter (fun f => negb (fst f =? p)) (frames s)) <-> In (q, b) (frames s) /\ q <> p).
    { intros q b. rewrite filter_In. simpl. rewrite negb_true_iff, Z.eqb_neq. tauto. }
    assert (BI : forall q m al', In (q, m, al') (filter (fun x => negb (fst (fst x) =? p)) (blocks s)) <-> In (q, m, al') (blocks s) /\ q <> p).
    { intros q m al'. rewrite filter_In. simpl. rewrite negb_true_iff, Z.eqb_neq. tauto. }
    assert (K : forall q b, In (q, b) (frames s) -> q <> p ->
              wipe (put (objs s) (hloc p bytes) None) p (blk * n) (hloc q b) = objs s (hloc q b) /\ hloc q b <> hloc p bytes).
    { intros q b Hq N. destruct (frame_place I Hq) as (al' & sz' & n' & B' & _ & _ & _ & _ & _ & _ & _ & _ & X1 & X2).
      assert (hloc q b <> hloc p bytes) by (intros X; destruct (hloc_inj I Hq E X); auto). split; auto.
      unfold wipe, put, blk. destruct (Z.eqb_spec (hloc q b) (hloc p bytes)); [congruence|].
      destruct (Z.leb_spec p (hloc q b)); auto. destruct (Z.ltb_spec (hloc q b) (p + 16 * n)); auto. simpl.
      exfalso. destruct (i_disj I _ _ _ _ _ _ B' B N); lia. }
    assert (CP : copyat (log s) (hloc p bytes) = Some al) by (apply (i_copy I); exists p, bytes, sz; auto).
    constructor; simpl.
    + repeat match goal with |- _ /\ _ => split end; auto; [apply (i_live I); auto| |apply (i_proper I)].
      intros x Hx. destruct (Z.eqb_spec (hloc p bytes) x); auto.
      destruct (copyat (log s) x) as [al'|] eqn:C; auto. exfalso. apply (i_copy I) in C. destruct C as (q & b & sz' & Hq & -> & _).
      destruct (frame_place I Hq) as (al1 & sz1 & n1 & B' & _ & _ & _ & _ & _ & _ & _ & _ & X1 & X2).
      assert (N : q <> p). { intros ->. apply n0. f_equal. eapply i_uniq; eauto. }
      destruct (i_disj I _ _ _ _ _ _ B' B N); lia.
    + intros a m al'. rewrite BI. intros [X _]. eapply i_range; eauto.
    + intros a m al' a' m' al''. rewrite !BI. intros [X _] [Y _] N. eapply i_disj; eauto.
    + intros a m al'. rewrite BI. destruct (Z.eqb_spec p a) as [->|N]; [split; [discriminate|intros [_ X]; congruence]|].
      rewrite (i_live I). split; auto. tauto.
    + intros q b. rewrite FI. intros [Hq N]. destruct (i_frame I _ _ Hq) as (R & al' & sz' & Rs0 & O' & B'). split; auto.
      exists al', sz'. destruct (K _ _ Hq N) as [-> _]. rewrite BI. auto.
    + intros q b b'. rewrite !FI. intros [X _] [Y _]. eapply i_uniq; eauto.
    + intros a m al'. rewrite BI. intros [X N]. destruct (i_block I _ _ _ X) as (b & Hb). exists b. rewrite FI. auto.
    + intros x al'. destruct (Z.eqb_spec (hloc p bytes) x) as [<-|N].
      * split; [discriminate|]. intros (q & b & sz' & Hq & X & _). rewrite FI in Hq. destruct Hq as [Hq Nq]. destruct (K _ _ Hq Nq). congruence.
      * rewrite (i_copy I). split; intros (q & b & sz' & Hq & -> & O').
        -- assert (Nq : q <> p) by (intros ->; apply N; f_equal; eapply i_uniq; eauto).
           exists q, b, sz'. rewrite FI. destruct (K _ _ Hq Nq) as [-> _]. auto.
        -- rewrite FI in Hq. destruct Hq as [Hq Nq]. destruct (K _ _ Hq Nq) as [K1 _]. rewrite K1 in O'. exists q, b, sz'. auto.
Qed.

Lemma run_inv ls : forall s s', inv s -> run s ls = Some s' -> inv s'.
Proof.
  induction ls as [|l ls IH]; intros s s' I H; simpl in H; [inversion H; subst; auto|].
  destruct (step s l) eqn:E; [|discriminate]. eapply IH; [eapply step_inv; eauto|eauto].
Qed.

(** ** Theorems *)

(** For every number of tasks, sizes of frames, allocators, order of creation and destruction, choice of memory, and whatever the coroutines write into their frames. *)
Theorem frame_memory_proper_partial ls s : run init ls = Some s -> proper (log s).
Proof. intros H. eapply i_proper, run_inv; eauto. apply inv_init. Qed.

(** Blocks held by the tasks are the blocks of the frames that exist: when all frames are destroyed all memory is given back and no copy of an allocator is left. *)
Theorem frame_no_leak ls s : run init ls = Some s ->
  (forall a al n, live (log s) a = Some (al, n) -> exists b, In (a, b) (frames s)) /\
  (frames s = [] -> (forall a, live (log s) a = None) /\ (forall x, copyat (log s) x = None)).
Proof.
  intros H. pose proof (run_inv _ inv_init H) as I. split.
  - intros a al n L. apply (i_live I) in L. eapply i_block; eauto.
  - intros F. split.
    + intros a. destruct (live (log s) a) as [[al n]|] eqn:L; auto. apply (i_live I) in L.
      destruct (i_block I _ _ _ L) as (b & Hb). rewrite F in Hb. destruct Hb.
    + intros x. destruct (copyat (log s) x) as [al|] eqn:C; auto. apply (i_copy I) in C.
      destruct C as (p & b & sz & Hb & _). rewrite F in Hb. destruct Hb.
Qed.

(** A frame that exists can be destroyed: the memory goes to the allocator it was made with. *)
Theorem frame_delete ls s p bytes al n :
  run init ls = Some s -> In (p, bytes) (frames s) -> live (log s) p = Some (al, n) ->
  exists s', step s (LDelete p bytes) = Some s' /\ exists x, log s' = EUpFree al p n :: EDrop al x :: log s.
Proof.
  intros H F L. pose proof (run_inv _ inv_init H) as I. simpl. rewrite (proj2 (isframe_in _ _ _) F). eexists. split; [reflexivity|].
  destruct (frame_place I F) as (al' & sz & n' & B & Rs & O & En & P1 & P2 & P3 & P4 & P5 & P6 & P7).
  apply (i_live I) in L. destruct (block_fun I L B) as [<- <-].
  pose proof (divmod_range P5) as [D1 D2]. assert (Rs' : 0 <= sz < 2 ^ 64) by lia. pose proof (divmod_range Rs') as [E1 E2].
  unfold op_delete, deallocate.
  assert (W : w64 (p + blk * divmod bytes blk) = hloc p bytes) by (unfold hloc, blk in *; apply w64_id; lia). rewrite W. simpl objs. rewrite O, Z.eqb_refl. simpl.
  rewrite w64_id by lia. rewrite <- En. eauto.
Qed.

(** ** What is not true of the code: the copy of an allocator that needs an alignment of more than 16 is not aligned. *)
Theorem frame_overaligned_allocator_refuted :
  exists s x, run init [LNew 7 32 10 4096] = Some s /\ copyat (log s) x = Some 7%nat /\ x mod 32 <> 0.
Proof. eexists. exists 4112. split; [vm_compute; reflexivity|]. vm_compute. split; [reflexivity|discriminate]. Qed.

(** ** The hypotheses are met *)
Example frame_use :
  option_map (fun s => (log s, frames s)) (run init
    [LNew 1 8 100 4096; LWrite 4096 100 99; LNew 2 24 64 8192; LThrow 1 8 50; LDelete 4096 100; LNew 3 8 1 4096; LWrite 8192 64 63; LDelete 8192 64])
  = Some ([EUpFree 2 8192 6; EDrop 2 8256; EFrame 4096 1; EStore 3 4112 8; EUpAlloc 3 4096 2; EUpFree 1 4096 8; EDrop 1 4208; EThrow;
           EFrame 8192 64; EStore 2 8256 24; EUpAlloc 2 8192 6; EFrame 4096 100; EStore 1 4208 8; EUpAlloc 1 4096 8], [(4096, 1)]).
Proof. vm_compute. reflexivity. Qed.
