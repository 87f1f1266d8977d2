(** C70: the rings shared with the kernel lose, duplicate and overwrite nothing. *)
From Coq Require Import List ZArith Bool Lia Znumtheory.
From Verif Require Import Conc RingModel.
Import ListNotations.
Set Implicit Arguments.
Open Scope Z_scope.

(** ** Specification *)
(** A ring of up to half the words: the code has w = 32 and up to 2^15 slots. *)
Definition ok (c : cfg) := 0 <= kbits c < wbits c.
(** What submit has put into the ring and what the kernel has taken from it, oldest first (the log has the latest first) *)
Fixpoint accepted (l : list sev) : list Z :=
  match l with [] => [] | EAcc t :: l => accepted l ++ [tid t] | _ :: l => accepted l end.
Fixpoint taken (l : list sev) : list Z :=
  match l with [] => [] | ETake d :: l => taken l ++ [d] | _ :: l => taken l end.
(** The call of submit under way: its arguments, and the tasks it has decided so far, oldest first: true = put into the ring, false = completed with ECANCELED *)
Fixpoint cur (l : list sev) : option (list task * Z * bool * list (task * bool)) :=
  match l with
  | [] | ERet _ _ _ :: _ => None
  | ECall ts m st :: _ => Some (ts, m, st, [])
  | EAcc t :: l => match cur l with Some (ts, m, st, d) => Some (ts, m, st, d ++ [(t, true)]) | None => None end
  | EStop t :: l => match cur l with Some (ts, m, st, d) => Some (ts, m, st, d ++ [(t, false)]) | None => None end
  | _ :: l => cur l
  end.
Definition notready (t : task) := negb (trdy t).
(** What a call that returns (n, pending, ready) has done with its tasks, given the events before *)
Definition call_spec (c : cfg) (n : Z) (pending ready : list task) (pre : list sev) : Prop :=
  exists ts m st d, cur pre = Some (ts, m, st, d)
    (* every task is in exactly one place, in the order given *)
    /\ ready = filter trdy ts /\ filter notready ts = map fst d ++ pending
    (* the count, and the limit *)
    /\ n = Z.of_nat (length (filter snd d)) /\ 0 <= n <= m
    (* tasks stay pending only if the limit is reached or the ring was full *)
    /\ (pending <> [] -> n = m \/ exists late mid, pre = late ++ mid /\ cur mid = Some (ts, m, st, []) /\
          Z.of_nat (length (accepted pre)) - Z.of_nat (length (taken mid)) = slots c)
    (* nothing is cancelled while the context is not stopped, and no cancellation ever *)
    /\ (forall t, In (t, false) d -> st = true /\ tcan t = false)
    (* a stopped context accepts no task that comes before the first cancellation *)
    /\ (st = true -> forall d1 t d2, d = d1 ++ (t, true) :: d2 -> tcan t = true \/ exists t' b, In (t', b) d1 /\ tcan t' = true).

(** ** Arithmetic of the indices *)
Section Arith.
Variable c : cfg.
Hypothesis OK : ok c.
Lemma slots_pos : 0 < slots c.
Proof. unfold slots. apply Z.pow_pos_nonneg; destruct OK; lia. Qed.
Lemma slots_words : slots c < words c.
Proof. unfold slots, words. destruct OK. apply Z.pow_lt_mono_r; lia. Qed.
Lemma slot_mod x : slot c x = x mod slots c.
Proof. unfold slot. replace (slots c - 1) with (Z.ones (kbits c)) by (rewrite Z.ones_equiv; unfold slots; lia). rewrite Z.land_ones; [reflexivity|destruct OK; lia]. Qed.
Lemma divides : (slots c | words c).
Proof. exists (2 ^ (wbits c - kbits c)). unfold slots, words. destruct OK. rewrite <- Z.pow_add_r by lia. f_equal. lia. Qed.
Lemma slot_wrap x : slot c (wrap c x) = slot c x.
Proof. rewrite !slot_mod. unfold wrap. pose proof slots_pos. pose proof slots_words. symmetry. apply Zmod_div_mod; try lia. apply divides. Qed.
Lemma wrap_succ x : wrap c (wrap c x + 1) = wrap c (x + 1).
Proof. unfold wrap. apply Zplus_mod_idemp_l. Qed.
Lemma wrap_diff a b : 0 <= a - b < words c -> wrap c (wrap c a - wrap c b) = a - b.
Proof. intros H. unfold wrap. rewrite <- Zminus_mod. apply Z.mod_small; auto. Qed.
Lemma wrap_small a : 0 <= a < words c -> wrap c a = a.
Proof. intros. apply Z.mod_small; auto. Qed.
Lemma wrap_eq a b : 0 <= b - a < words c -> wrap c a = wrap c b -> a = b.
Proof. intros H E. pose proof (wrap_diff b a H) as D. rewrite E, Z.sub_diag in D. unfold wrap in D. rewrite Z.mod_0_l in D by lia. lia. Qed.
Lemma slot_neq a b : 0 < b - a < slots c -> slot c b <> slot c a.
Proof.
  intros H E. rewrite !slot_mod in E. pose proof slots_pos as P. assert (D : (b - a) mod slots c = 0).
  { rewrite Zminus_mod, E, Z.sub_diag. apply Z.mod_0_l. lia. }
  rewrite Z.mod_small in D; lia.
Qed.
End Arith.
Lemma set_same f x v : set f x v x = v.
Proof. unfold set. rewrite Z.eqb_refl. auto. Qed.
Lemma set_other f x y v : y <> x -> set f x v y = f y.
Proof. unfold set. intros. destruct (Z.eqb_spec y x); congruence. Qed.
Definition len {A} (l : list A) := Z.of_nat (length l).
Lemma len_app {A} (l l' : list A) : len (l ++ l') = len l + len l'.
Proof. unfold len. rewrite app_length. lia. Qed.
Definition at_ {A} (l : list A) (j : Z) := nth_error l (Z.to_nat j).
Lemma at_app1 {A} (l l' : list A) j : 0 <= j < len l -> at_ (l ++ l') j = at_ l j.
Proof. intros. unfold at_, len in *. apply nth_error_app1. lia. Qed.
Lemma at_last {A} (l : list A) x : at_ (l ++ [x]) (len l) = Some x.
Proof. unfold at_, len. rewrite Nat2Z.id. rewrite nth_error_app2, Nat.sub_diag by lia. auto. Qed.
Lemma at_mid {A} (l l' : list A) x : at_ (l ++ x :: l') (len l) = Some x.
Proof. unfold at_, len. rewrite Nat2Z.id. rewrite nth_error_app2, Nat.sub_diag by lia. auto. Qed.
Lemma at_prefix {A} (l r : list A) x : at_ (l ++ r) (len l) = Some x -> exists r', r = x :: r'.
Proof. unfold at_, len. rewrite Nat2Z.id, nth_error_app2, Nat.sub_diag by lia. destruct r; simpl; [discriminate|]. inversion 1; eauto. Qed.

(** ** The submission ring: invariant *)
Definition unpub (s : sst) : Z := match spcs s with SLoop l | SFill l _ => lsub l | _ => 0 end.
Record sinv (c : cfg) (s0 : Z) (s : sst) : Prop := {
  I_head : shead s = wrap c (s0 + len (taken (slog s)));
  I_tail : stail s = wrap c (s0 + (len (accepted (slog s)) - unpub s));
  I_unpub : 0 <= unpub s /\ len (taken (slog s)) <= len (accepted (slog s)) - unpub s;
  I_room : len (accepted (slog s)) <= len (taken (slog s)) + slots c;
  I_loc : match spcs s with
          | SIdle => True
          | SHead l => ltail l = wrap c (s0 + len (accepted (slog s)))
          | SLoop l | SFill l _ => ltail l = wrap c (s0 + len (accepted (slog s))) /\ len (accepted (slog s)) - lsub l + lmax l <= len (taken (slog s)) + slots c
          end;
  I_fill : match spcs s with SFill l _ => lsub l < lmax l | _ => True end;
  I_ent : forall j, len (taken (slog s)) <= j < len (accepted (slog s)) ->
            sarr s (slot c (s0 + j)) = slot c (s0 + j) /\ at_ (accepted (slog s)) j = Some (sent s (slot c (s0 + j)));
  I_pre : exists rest, accepted (slog s) = taken (slog s) ++ rest;
  I_assert : ~ In EAssert (slog s) }.

Lemma sinv_init c s0 a e : sinv c s0 (sinit c s0 a e).
Proof.
  constructor; simpl; auto; try (unfold len; simpl; lia).
  - f_equal. unfold len; simpl. lia.
  - f_equal. unfold len; simpl. lia.
  - unfold unpub, len; simpl. lia.
  - unfold slots. pose proof (Z.pow_nonneg 2 (kbits c)). unfold len; simpl. lia.
  - exists []. auto.
Qed.

Lemma sinv_step c s0 s a s' : ok c -> sinv c s0 s -> sstep c a s = Some s' -> sinv c s0 s'.
Proof.
  intros OK I E. destruct I as [Ih It [Iu1 Iu2] Ir Il If Ie [rest Ip] Ia].
  pose proof (slots_pos OK) as SP. pose proof (slots_words OK) as SW.
  destruct a as [ts m st| |]; simpl in E.
  - destruct (spcs s) eqn:P; try discriminate. destruct (Z.ltb_spec m 0); [discriminate|]. inversion E; subst; clear E.
    unfold unpub in *; rewrite ?P in *. constructor; unfold unpub; simpl; auto; try lia.
    + rewrite It. f_equal. lia.
    + exists rest; auto.
    + intros [X|X]; [discriminate|auto].
  - destruct (spcs s) as [|l|l|l t] eqn:P; [discriminate| | |]; unfold unpub in *; rewrite ?P in *.
    + inversion E; subst; clear E.
      assert (CN : wrap c (ltail l - shead s) = len (accepted (slog s)) - len (taken (slog s))).
      { rewrite Il, Ih. rewrite wrap_diff; lia. }
      rewrite CN. rewrite (@wrap_small c (slots c - (len (accepted (slog s)) - len (taken (slog s))))) by lia.
      destruct (Z.leb_spec (len (accepted (slog s)) - len (taken (slog s))) (slots c)); [|lia].
      constructor; unfold unpub; simpl; auto; try lia. exists rest; auto.
    + destruct Il as [Il1 Il2]. assert (RET : forall n p r, sinv c s0 (mks (shead s) (ltail l) (sarr s) (sent s) SIdle (ERet n p r :: slog s))).
      { intros. constructor; unfold unpub; simpl; auto; try lia.
        - rewrite Il1. f_equal. lia.
        - exists rest; auto.
        - intros [X|X]; [discriminate|auto]. }
      destruct (ltasks l) as [|t ts]; [inversion E; apply RET|].
      destruct (Z.ltb_spec (lsub l) (lmax l)); [|inversion E; apply RET].
      destruct (trdy t); inversion E; subst; clear E; constructor; unfold unpub; simpl; auto; try lia; try (exists rest; auto).
      intros j J. destruct (Ie j J) as [E1 E2]. split; auto. rewrite set_other; auto. rewrite Il1, (slot_wrap OK).
      intros X; symmetry in X; revert X. apply (slot_neq OK). lia.
    + destruct Il as [Il1 Il2]. destruct (lstop l); inversion E; subst; clear E.
      * constructor; unfold unpub; simpl; auto; try lia. { exists rest; auto. } intros [X|X]; [discriminate|auto].
      * assert (L1 : forall x, len (accepted (slog s) ++ [x]) = len (accepted (slog s)) + 1) by (intros; rewrite len_app; reflexivity).
        constructor; unfold unpub; simpl; rewrite ?L1; auto; try lia.
        -- rewrite It. f_equal. lia.
        -- rewrite Il1, wrap_succ. split; [f_equal; lia|lia].
        -- intros j J. rewrite Il1, (slot_wrap OK). destruct (Z.eq_dec j (len (accepted (slog s)))) as [->|N].
           ++ rewrite !set_same, at_last. auto.
           ++ assert (NE : slot c (s0 + j) <> slot c (s0 + len (accepted (slog s)))).
              { intros X; symmetry in X; revert X. apply (slot_neq OK). lia. }
              rewrite !set_other by auto. rewrite at_app1 by (unfold len in *; lia). apply Ie. lia.
        -- exists (rest ++ [tid t]). rewrite Ip, app_assoc. auto.
        -- intros [X|X]; [discriminate|auto].
  - destruct (Z.eqb_spec (shead s) (stail s)) as [|N]; [discriminate|]. inversion E; subst; clear E.
    assert (LT : len (taken (slog s)) < len (accepted (slog s)) - unpub s).
    { destruct (Z.eq_dec (len (taken (slog s))) (len (accepted (slog s)) - unpub s)) as [X|X]; [|lia]. exfalso. apply N. rewrite Ih, It, X. auto. }
    assert (L1 : forall x, len (taken (slog s) ++ [x]) = len (taken (slog s)) + 1) by (intros; rewrite len_app; reflexivity).
    destruct (Ie (len (taken (slog s)))) as [E1 E2]; [lia|].
    assert (SH : slot c (shead s) = slot c (s0 + len (taken (slog s)))) by (rewrite Ih; apply slot_wrap; auto).
    constructor; unfold unpub in *; simpl; rewrite ?L1; auto; try lia.
    + rewrite Ih, wrap_succ. f_equal. lia.
    + destruct (spcs s); auto; split; try apply Il; destruct Il; lia.
    + intros j J. apply Ie. lia.
    + rewrite SH, E1. rewrite Ip in E2. destruct (at_prefix _ _ E2) as [r' R]. exists r'. rewrite Ip, R, <- app_assoc. auto.
    + intros [X|X]; [discriminate|auto].
Qed.
Definition sreach (c : cfg) (s0 : Z) (a e : Z -> Z) (s : sst) := exists ls, srun c ls (sinit c s0 a e) = Some s.
Lemma sinv_reach c s0 a e s : ok c -> sreach c s0 a e s -> sinv c s0 s.
Proof.
  intros OK [ls R]. assert (G : forall ls x, sinv c s0 x -> srun c ls x = Some s -> sinv c s0 s).
  { clear R ls. induction ls as [|b ls IH]; simpl; intros x I R; [inversion R; subst; auto|]. destruct (sstep c b x) eqn:Q; [|discriminate]. eapply IH; [|exact R]. eapply sinv_step; eauto. }
  eapply G; [apply sinv_init|exact R].
Qed.

(** The kernel takes exactly the tasks submit accepted, each once and in order, whatever the initial index, across wrap-around, and however its steps and the submitter's interleave; never more than the ring holds are under way. *)
Theorem submission_ring_fifo c s0 a e s : ok c -> sreach c s0 a e s ->
  exists rest, accepted (slog s) = taken (slog s) ++ rest /\ len rest <= slots c.
Proof.
  intros OK R. destruct (sinv_reach OK R) as [_ _ _ Ir _ _ _ [rest P] _]. exists rest. split; auto. rewrite P in Ir. rewrite len_app in Ir. lia.
Qed.
(** When submit has returned and the kernel sees an empty ring, it has taken everything accepted. *)
Theorem submission_ring_drained c s0 a e s : ok c -> sreach c s0 a e s -> spcs s = SIdle -> shead s = stail s -> taken (slog s) = accepted (slog s).
Proof.
  intros OK R PC E. destruct (sinv_reach OK R) as [Ih It [Iu1 Iu2] Ir _ _ _ [rest P] _]. pose proof (slots_words OK) as SW. pose proof (slots_pos OK).
  unfold unpub in *. rewrite PC in *. rewrite Ih, It in E.
  assert (Q : s0 + len (taken (slog s)) = s0 + (len (accepted (slog s)) - 0)).
  { apply (wrap_eq c); auto. lia. }
  rewrite P in *. rewrite len_app in Q. assert (len rest = 0) by lia. destruct rest; [rewrite app_nil_r; auto|discriminate].
Qed.
(** As long as there is an accepted, published task the kernel can take one: nothing stays behind. *)
Theorem submission_ring_visible c s0 a e s : ok c -> sreach c s0 a e s -> spcs s = SIdle -> taken (slog s) <> accepted (slog s) -> exists s', sstep c LTake s = Some s'.
Proof.
  intros OK R PC N. simpl. destruct (Z.eqb_spec (shead s) (stail s)) as [E|E]; [|eauto]. exfalso. apply N. eapply submission_ring_drained; eauto.
Qed.
(** The assertion L242 never fails. *)
Theorem submission_ring_assert c s0 a e s : ok c -> sreach c s0 a e s -> ~ In EAssert (slog s).
Proof. intros OK R. apply (sinv_reach OK R). Qed.

(** ** What a call of submit does with its tasks *)
Fixpoint each (P : sev -> list sev -> Prop) (l : list sev) : Prop :=
  match l with [] => True | e :: l => P e l /\ each P l end.
Lemma each_split P l : each P l -> forall post e pre, l = post ++ e :: pre -> P e pre.
Proof.
  induction l as [|a l IH]; intros H post e pre E.
  - destruct post; discriminate.
  - destruct post as [|b post]; simpl in E; inversion E; subst; [apply H|]. eapply IH; [apply H|eauto].
Qed.
Definition rets (c : cfg) (e : sev) (pre : list sev) := match e with ERet n p r => call_spec c n p r pre | _ => True end.
Definition verd (st : bool) (d : list (task * bool)) : Prop :=
  (forall t, In (t, false) d -> st = true /\ tcan t = false) /\
  (st = true -> forall d1 t d2, d = d1 ++ (t, true) :: d2 -> tcan t = true \/ exists t' b, In (t', b) d1 /\ tcan t' = true).
Definition quiet (d : list (task * bool)) := forallb (fun p => negb (tcan (fst p))) d.
Definition loop_inv (c : cfg) (s : sst) (l : loc) (ts : list task) (m : Z) (st : bool) (d : list (task * bool)) (proc : list task) : Prop :=
  cur (slog s) = Some (ts, m, st, d) /\ lready l = filter trdy proc /\ filter notready proc = map fst d
  /\ lsub l = len (filter snd d) /\ lsub l <= lmax l /\ lmax l <= m
  /\ (lmax l = m \/ exists late mid, slog s = late ++ mid /\ cur mid = Some (ts, m, st, []) /\ len (accepted (slog s)) - lsub l + lmax l = len (taken mid) + slots c)
  /\ verd st d.
Definition cinv (c : cfg) (s : sst) : Prop :=
  match spcs s with
  | SIdle => True
  | SHead l => cur (slog s) = Some (ltasks l, lmax l, lstop l, []) /\ 0 <= lmax l
  | SLoop l => exists ts m st d proc, loop_inv c s l ts m st d proc /\ ts = proc ++ ltasks l /\ lstop l = st && quiet d
  | SFill l t => exists ts m st d proc, loop_inv c s l ts m st d proc /\ ts = proc ++ t :: ltasks l /\ trdy t = false /\ lstop l = st && quiet d && negb (tcan t)
  end.
Lemma filter_none {A} (f : A -> bool) x : f x = false -> filter f [x] = [].
Proof. simpl. intros ->. auto. Qed.
Lemma verd_snoc st d t b : verd st d -> b = negb (st && quiet d && negb (tcan t)) -> verd st (d ++ [(t, b)]).
Proof.
  intros [V1 V2] B. split.
  - intros x X. apply in_app_or in X. destruct X as [X|[X|[]]]; auto. inversion X; subst. destruct st, (tcan x); simpl in *; try discriminate; auto. destruct (quiet d); discriminate.
  - intros S d1 x d2 E. destruct d2 as [|y d2 _] using rev_ind.
    + apply app_inj_tail in E. destruct E as [E1 E2]. inversion E2; subst. destruct (tcan x) eqn:C; auto. right. simpl in H1. rewrite andb_true_r in H1.
      destruct (quiet d1) eqn:Q; [discriminate|]. clear -Q. induction d1 as [|[t b] d IH]; simpl in *; [discriminate|]. destruct (tcan t) eqn:C; simpl in *; [exists t, b; auto|]. destruct (IH Q) as (t' & b' & ? & ?). exists t', b'. auto.
    + rewrite app_comm_cons, app_assoc in E. apply app_inj_tail in E. destruct E as [E _]. eapply V2; eauto.
Qed.
Lemma quiet_snoc d t b : quiet (d ++ [(t, b)]) = quiet d && negb (tcan t).
Proof. unfold quiet. rewrite forallb_app. simpl. rewrite andb_true_r. auto. Qed.
Lemma filter_snoc {A} (f : A -> bool) l x : filter f (l ++ [x]) = filter f l ++ if f x then [x] else [].
Proof. rewrite filter_app. simpl. auto. Qed.

Lemma verd_nil st : verd st [].
Proof. split; [intros t []|]. intros _ [|? ?] ? ? X; discriminate. Qed.
Ltac spl := repeat match goal with |- _ /\ _ => split end.
Lemma cinv_step c s0 s a s' : ok c -> sinv c s0 s -> cinv c s -> each (rets c) (slog s) -> sstep c a s = Some s' -> cinv c s' /\ each (rets c) (slog s').
Proof.
  intros OK I C L E. destruct a as [ts m st| |]; simpl in E.
  - destruct (spcs s) eqn:P; try discriminate. destruct (Z.ltb_spec m 0); [discriminate|]. inversion E; subst; clear E. unfold cinv; simpl. auto.
  - unfold cinv in C. destruct (spcs s) as [|l|l|l t] eqn:P; [discriminate| | |].
    + destruct C as [C1 C2]. inversion E; subst; clear E.
      destruct I as [Ih It [Iu1 Iu2] Ir Il If Ie Ip Ia]. rewrite P in *. unfold unpub in *. rewrite P in *.
      pose proof (slots_pos OK) as SP. pose proof (slots_words OK) as SW.
      assert (CN : wrap c (ltail l - shead s) = len (accepted (slog s)) - len (taken (slog s))) by (rewrite Il, Ih; rewrite wrap_diff; lia).
      destruct (wrap c (ltail l - shead s) <=? slots c) eqn:Q; [|rewrite CN in Q; apply Z.leb_gt in Q; lia]. split; [|auto].
      rewrite CN. rewrite (@wrap_small c (slots c - (len (accepted (slog s)) - len (taken (slog s))))) by lia.
      unfold cinv; simpl. exists (ltasks l), (lmax l), (lstop l), [], []. split; [|simpl; rewrite andb_true_r; auto].
      unfold loop_inv; simpl. spl; auto; try lia.
      * destruct (Z.le_ge_cases (lmax l) (slots c - (len (accepted (slog s)) - len (taken (slog s))))); [left; lia|right]. exists [], (slog s). spl; auto. lia.
      * apply verd_nil.
    + destruct C as (ts & m & st & d & proc & (K1 & K2 & K3 & K4 & K5 & K6 & K7 & V) & T & S).
      assert (RET : each (rets c) (ERet (lsub l) (drain_pending (ltasks l)) (lready l ++ drain_ready (ltasks l)) :: slog s)  \/ (ltasks l <> [] /\ lsub l < lmax l)).
      { destruct (Z.ltb_spec (lsub l) (lmax l)) as [LT|GE].
        - destruct (ltasks l) eqn:TT; [|right; split; [discriminate|auto]]. left. split; auto. unfold rets, call_spec. exists ts, m, st, d. rewrite app_nil_r in T. subst ts. rewrite K2, K3. simpl. rewrite !app_nil_r.
          split; [auto|]. split; [auto|]. split; [auto|]. split; [exact K4|]. split; [split; [rewrite K4; unfold len; lia|lia]|]. split; [intros N; contradiction|exact V].
        - left. split; auto. unfold rets, call_spec. exists ts, m, st, d. subst ts. rewrite !filter_app, K2, K3.
          split; [auto|]. split; [auto|]. split; [auto|]. split; [exact K4|]. split; [split; [rewrite K4; unfold len; lia|lia]|]. split; [|exact V]. intros _. destruct K7 as [K7|(late & mid & Q1 & Q2 & Q3)]; [left; lia|right]. exists late, mid. spl; auto. unfold len in *; lia. }
      destruct (ltasks l) as [|t rest] eqn:TT.
      { inversion E; subst; clear E. destruct RET as [RET|[RET _]]; [|contradiction]. simpl in RET |- *. rewrite app_nil_r in RET. unfold cinv; simpl. auto. }
      destruct (Z.ltb_spec (lsub l) (lmax l)) as [LT|GE].
      2:{ inversion E; subst; clear E. destruct RET as [RET|[_ RET]]; [|lia]. simpl in RET |- *. unfold cinv; simpl. auto. }
      destruct (trdy t) eqn:R; inversion E; subst s'; clear E; (split; [|auto]); unfold cinv; simpl.
      * exists ts, m, st, d, (proc ++ [t]). split; [|rewrite <- app_assoc; auto]. unfold loop_inv; simpl.
        rewrite !filter_snoc, R, K2. unfold notready at 2. rewrite R. simpl. rewrite app_nil_r. spl; auto; apply V.
      * exists ts, m, st, d, proc. split; [|rewrite S; auto]. unfold loop_inv; simpl. spl; auto; apply V.
    + destruct C as (ts & m & st & d & proc & (K1 & K2 & K3 & K4 & K5 & K6 & K7 & V) & T & R & S).
      assert (F : lsub l < lmax l) by (destruct I as [_ _ _ _ _ If _ _ _]; rewrite P in If; auto).
      destruct (lstop l) eqn:ST; inversion E; subst s'; clear E; (split; [|split; simpl; auto]); unfold cinv; simpl.
      * exists ts, m, st, (d ++ [(t, false)]), (proc ++ [t]). split; [|split; [rewrite <- app_assoc; auto|rewrite ST, quiet_snoc, andb_assoc; auto]].
        unfold loop_inv; simpl. rewrite K1, !filter_snoc, map_app, R, K2, K3. unfold notready. rewrite R. simpl. rewrite app_nil_r.
        split; [auto|]. split; [auto|]. split; [auto|]. rewrite app_nil_r. repeat (split; [first [assumption|lia]|]). split.
        -- destruct K7 as [K7|(late & mid & Q1 & Q2 & Q3)]; [left; auto|right]. exists (EStop t :: late), mid. rewrite Q1. spl; auto. rewrite <- Q1. auto.
        -- apply verd_snoc; auto. rewrite <- S. auto.
      * exists ts, m, st, (d ++ [(t, true)]), (proc ++ [t]). split; [|split; [rewrite <- app_assoc; auto|rewrite quiet_snoc, andb_assoc; auto]].
        unfold loop_inv; simpl. rewrite K1, !filter_snoc, map_app, R, K2, K3. unfold notready. rewrite R. simpl. rewrite app_nil_r.
        split; [auto|]. split; [auto|]. split; [auto|]. rewrite !len_app. change (len [(t, true)]) with 1. change (len [tid t]) with 1. repeat (split; [first [assumption|lia]|]). split.
        -- destruct K7 as [K7|(late & mid & Q1 & Q2 & Q3)]; [left; auto|right]. exists (EAcc t :: late), mid. rewrite Q1. spl; auto. rewrite <- Q1. lia.
        -- apply verd_snoc; auto. rewrite <- S. auto.
  - destruct (Z.eqb_spec (shead s) (stail s)) as [|N]; [discriminate|]. inversion E; subst; clear E. simpl. split; [|auto].
    unfold cinv in *. simpl. assert (LI : forall l ts m st d proc, loop_inv c s l ts m st d proc ->
      loop_inv c {| shead := wrap c (shead s + 1); stail := stail s; sarr := sarr s; sent := sent s; spcs := spcs s; slog := ETake (sent s (sarr s (slot c (shead s)))) :: slog s |} l ts m st d proc).
    { intros l ts m st d proc (K1 & K2 & K3 & K4 & K5 & K6 & K7 & V). unfold loop_inv; simpl. spl; auto; try apply V.
      destruct K7 as [K7|(late & mid & Q1 & Q2 & Q3)]; [left; auto|right]. exists (ETake (sent s (sarr s (slot c (shead s)))) :: late), mid. split; [simpl; rewrite <- Q1; auto|auto]. }
    destruct (spcs s); auto.
    + destruct C as (ts & m & st & d & proc & K & C). exists ts, m, st, d, proc. split; [apply LI; exact K|exact C].
    + destruct C as (ts & m & st & d & proc & K & C). exists ts, m, st, d, proc. split; [apply LI; exact K|exact C].
Qed.

(** Every call of submit puts every task in exactly one place and honours the limits, for every list of tasks, limit, initial index and interleaving with the kernel. *)
Theorem submit_call_spec c s0 a e s : ok c -> sreach c s0 a e s -> forall post n p r pre, slog s = post ++ ERet n p r :: pre -> call_spec c n p r pre.
Proof.
  intros OK [ls R] post n p r pre E.
  assert (G : forall ls x, sinv c s0 x -> cinv c x -> each (rets c) (slog x) -> srun c ls x = Some s -> each (rets c) (slog s)).
  { clear R E ls. induction ls as [|b ls IH]; simpl; intros x I C L R; [inversion R; subst; auto|]. destruct (sstep c b x) as [y|] eqn:Q; [|discriminate].
    destruct (@cinv_step c s0 x b y OK I C L Q) as [C' L']. eapply IH; [|exact C'|exact L'|exact R]. eapply sinv_step; eauto. }
  assert (Q : each (rets c) (slog s)) by exact (G ls _ (sinv_init c s0 a e) Logic.I Logic.I R).
  exact (@each_split (rets c) (slog s) Q post (ERet n p r) pre E).
Qed.
(** The documentation of submit says that a stopped context submits nothing but cancellations. The full statement is false: after a cancellation in the same batch everything is submitted. *)
Theorem stopped_submits_only_cancellations_refuted :
  exists c s0 a e s d, ok c /\ sreach c s0 a e s /\ (exists ts m, cur (slog s) = Some (ts, m, true, d)) /\ exists t, In (t, true) d /\ tcan t = false.
Proof.
  exists (mkc 32 2), 0, (fun _ => 0), (fun _ => 0).
  assert (R : exists s, srun (mkc 32 2) [LSubmit [mkt 1 false true; mkt 2 false false] 4 true; LStep; LStep; LStep; LStep; LStep] (sinit (mkc 32 2) 0 (fun _ => 0) (fun _ => 0)) = Some s
     /\ cur (slog s) = Some ([mkt 1 false true; mkt 2 false false], 4, true, [(mkt 1 false true, true); (mkt 2 false false, true)])).
  { eexists. split; vm_compute; reflexivity. }
  destruct R as (s & R & Q). exists s, [(mkt 1 false true, true); (mkt 2 false false, true)]. split; [unfold ok; simpl; lia|]. split; [eexists; exact R|]. split; [eauto|].
  exists (mkt 2 false false). simpl. auto.
Qed.

(** ** The completion ring *)
Fixpoint posted (l : list cev) : list Z := match l with [] => [] | EPost v :: l => posted l ++ [v] | _ :: l => posted l end.
Fixpoint handled (l : list cev) : list Z := match l with [] => [] | EHandle v :: l => handled l ++ [v] | _ :: l => handled l end.
(** the completions handled since complete was called *)
Fixpoint since (l : list cev) : list Z := match l with [] => [] | EEnter :: _ => [] | EHandle v :: l => since l ++ [v] | _ :: l => since l end.
Definition callowed (c : cfg) (e : cev) (pre : list cev) : Prop :=
  match e with
  | EHandle v => exists rest, posted pre = handled pre ++ v :: rest   (* the oldest completion not handled yet *)
  | ERead v => exists old, handled pre = old ++ [v]                   (* a running completion function sees its own completion *)
  | EDone n => n = len (since pre) /\ n <= slots c                    (* the count is right, and one call handles at most a ringful *)
  | EEnter | EPost _ => True
  end.
Fixpoint ceach (P : cev -> list cev -> Prop) (l : list cev) : Prop :=
  match l with [] => True | e :: l => P e l /\ ceach P l end.
Lemma ceach_split P l : ceach P l -> forall post e pre, l = post ++ e :: pre -> P e pre.
Proof.
  induction l as [|a l IH]; intros H post e pre E.
  - destruct post; discriminate.
  - destruct post as [|b post]; simpl in E; inversion E; subst; [apply H|]. eapply IH; [apply H|eauto].
Qed.
(** local: handled but its slot not yet given back *)
Definition held (s : cst) : Z := match cpcs s with CIdle | CTail _ => 0 | CLoop _ _ n | CNext _ n => n | CIn _ _ n => n + 1 end.
Definition done_ (s : cst) : Z := match cpcs s with CIn _ _ _ => len (handled (clog s)) - 1 | _ => len (handled (clog s)) end.
Record kinv (c : cfg) (s0 : Z) (s : cst) : Prop := {
  K_head : chead s = wrap c (s0 + (len (handled (clog s)) - held s));
  K_tail : ctail s = wrap c (s0 + len (posted (clog s)));
  K_held : 0 <= held s;
  K_le : len (handled (clog s)) <= len (posted (clog s));
  K_room : len (posted (clog s)) <= len (handled (clog s)) - held s + slots c;
  K_loc : match cpcs s with
          | CIdle => True
          | CTail h => h = wrap c (s0 + done_ s) /\ since (clog s) = []
          | CNext h n => h = wrap c (s0 + done_ s) /\ n = len (since (clog s))
          | CLoop h t n => h = wrap c (s0 + done_ s) /\ n = len (since (clog s)) /\ exists T, t = wrap c (s0 + T) /\ done_ s <= T <= len (posted (clog s))
          | CIn h t n => h = wrap c (s0 + done_ s) /\ n + 1 = len (since (clog s)) /\ 1 <= len (handled (clog s)) /\ 0 <= n
          end;
  K_ent : forall j, len (handled (clog s)) - held s <= j < len (posted (clog s)) -> 0 <= j -> at_ (posted (clog s)) j = Some (cent s (slot c (s0 + j)));
  K_base : held s <= len (handled (clog s));
  K_pre : exists rest, posted (clog s) = handled (clog s) ++ rest;
  K_log : ceach (callowed c) (clog s) }.
Lemma kinv_init c s0 e : kinv c s0 (cinit c s0 e).
Proof.
  constructor; unfold held; simpl; auto; try (unfold len; simpl; lia).
  - f_equal. unfold len; simpl. lia.
  - f_equal. unfold len; simpl. lia.
  - unfold slots. pose proof (Z.pow_nonneg 2 (kbits c)). unfold len; simpl. lia.
  - exists []. auto.
Qed.
Lemma len_snoc {A} (l : list A) x : len (l ++ [x]) = len l + 1.
Proof. rewrite len_app. reflexivity. Qed.
Lemma kinv_step c s0 s a s' : ok c -> kinv c s0 s -> cstep c a s = Some s' -> kinv c s0 s'.
Proof.
  intros OK I E. destruct I as [Kh Kt Kd Kl Kr Kc Ke Kb [rest Kp] Kg].
  pose proof (slots_pos OK) as SP. pose proof (slots_words OK) as SW.
  destruct a as [| | |v]; simpl in E.
  - destruct (cpcs s) eqn:P; try discriminate. inversion E; subst; clear E. unfold held, done_ in *. rewrite ?P in *.
    constructor; unfold held, done_; simpl; auto; try lia.
    + split; auto. rewrite Kh. f_equal. lia.
    + exists rest; auto.
  - destruct (cpcs s) as [|h|h t n|h t n|h n] eqn:P; [discriminate| | | |]; unfold held, done_ in *; rewrite ?P in *.
    + inversion E; subst; clear E. destruct Kc as [Kc1 Kc2]. constructor; unfold held, done_; simpl; auto; try lia.
      * split; auto. split; [rewrite Kc2; auto|]. exists (len (posted (clog s))). split; [auto|lia].
      * exists rest; auto.
    + destruct Kc as (Kc1 & Kc2 & T & Kc3 & Kc4). destruct (Z.eqb_spec h t) as [Q|Q]; inversion E; subst s'; clear E.
      * constructor; unfold held, done_; simpl; auto; try lia.
        -- rewrite Kc1. f_equal. lia.
        -- intros j J J0. apply Ke; auto. lia.
        -- exists rest; auto.
        -- split; auto. split; auto. lia.
      * assert (LT : len (handled (clog s)) < len (posted (clog s))).
        { destruct (Z.eq_dec T (len (handled (clog s)))) as [X|X]; [|lia]. exfalso. apply Q. rewrite Kc1, Kc3, X. auto. }
        assert (V : at_ (posted (clog s)) (len (handled (clog s))) = Some (cent s (slot c h))).
        { rewrite Kc1, (slot_wrap OK). apply Ke; [lia|]. unfold len; lia. }
        rewrite Kp in V. destruct (at_prefix _ _ V) as [r' R]. rewrite R in Kp.
        constructor; unfold held, done_; simpl; rewrite ?len_snoc; auto; try lia.
        -- rewrite Kh. f_equal. lia.
        -- split; [rewrite Kc1; f_equal; lia|]. split; [lia|]. split; [unfold len; lia|lia].
        -- intros j J J0. apply Ke; auto. lia.
        -- exists r'. rewrite <- app_assoc. auto.
        -- split; auto. exists r'. auto.
    + destruct Kc as (Kc1 & Kc2 & Kc3 & Kc4). inversion E; subst s'; clear E. constructor; unfold held, done_; simpl; auto; try lia.
      * split; [|lia]. rewrite Kc1, wrap_succ. f_equal. lia.
      * exists rest; auto.
    + destruct Kc as (Kc1 & Kc2). inversion E; subst s'; clear E. constructor; unfold held, done_; simpl; auto; try lia.
      * split; auto. split; auto. exists (len (posted (clog s))). split; auto. lia.
      * exists rest; auto.
  - destruct (cpcs s) as [|h|h t n|h t n|h n] eqn:P; try discriminate. unfold held, done_ in *; rewrite ?P in *. inversion E; subst s'; clear E.
    destruct Kc as (Kc1 & Kc2 & Kc3 & Kc4). constructor; unfold held, done_; simpl; rewrite ?P; auto; try lia.
    + exists rest; auto.
    + split; auto. destruct (handled (clog s)) as [|v old _] eqn:H using rev_ind; [unfold len in Kc3; simpl in Kc3; lia|]. exists old.
      assert (V : at_ (posted (clog s)) (len old) = Some (cent s (slot c h))).
      { rewrite Kc1, (slot_wrap OK). rewrite len_snoc in *. replace (len old + 1 - 1) with (len old) by lia. apply Ke; [lia|]. unfold len; lia. }
      rewrite Kp, <- app_assoc in V. destruct (at_prefix _ _ V) as [r' R]. inversion R. auto.
  - destruct (Z.ltb_spec (wrap c (ctail s - chead s)) (slots c)) as [LT|]; [|discriminate]. inversion E; subst s'; clear E.
    assert (D : len (posted (clog s)) - (len (handled (clog s)) - held s) < slots c).
    { rewrite Kh, Kt in LT. rewrite wrap_diff in LT; lia. }
    constructor; unfold held, done_ in *; simpl; rewrite ?len_snoc; auto; try lia.
    + rewrite Kt, wrap_succ. f_equal. lia.
    + destruct (cpcs s); auto. destruct Kc as (Kc1 & Kc2 & T & Kc3 & Kc4). split; auto. split; auto. exists T. split; auto. lia.
    + intros j J J0. rewrite Kt, (slot_wrap OK). destruct (Z.eq_dec j (len (posted (clog s)))) as [->|N].
      * rewrite set_same, at_last. auto.
      * rewrite at_app1 by lia. rewrite set_other; [apply Ke; lia|]. intros X; symmetry in X; revert X. apply (slot_neq OK). lia.
    + exists (rest ++ [v]). rewrite Kp, app_assoc. auto.
Qed.
Definition creach (c : cfg) (s0 : Z) (e : Z -> Z) (s : cst) := exists ls, crun c ls (cinit c s0 e) = Some s.
Lemma kinv_reach c s0 e s : ok c -> creach c s0 e s -> kinv c s0 s.
Proof.
  intros OK [ls R]. assert (G : forall ls x, kinv c s0 x -> crun c ls x = Some s -> kinv c s0 s).
  { clear R ls. induction ls as [|b ls IH]; simpl; intros x I R; [inversion R; subst; auto|]. destruct (cstep c b x) eqn:Q; [|discriminate]. eapply IH; [|exact R]. eapply kinv_step; eauto. }
  eapply G; [apply kinv_init|exact R].
Qed.
(** Every completion is handled once, in the order posted; a completion function reads its own completion for as long as it runs, whatever the kernel posts meanwhile; the count returned is right. *)
Theorem completion_ring_spec c s0 e s : ok c -> creach c s0 e s -> forall post ev pre, clog s = post ++ ev :: pre -> callowed c ev pre.
Proof. intros OK R post ev pre E. eapply ceach_split; [apply (kinv_reach OK R)|eauto]. Qed.
(** When complete has returned, everything posted by the time it last looked has been handled: if the ring is empty, everything. *)
Theorem completion_ring_drained c s0 e s : ok c -> creach c s0 e s -> cpcs s = CIdle -> chead s = ctail s -> handled (clog s) = posted (clog s).
Proof.
  intros OK R PC E. destruct (kinv_reach OK R) as [Kh Kt Kd Kl Kr _ _ _ [rest Kp] _]. unfold held in *. rewrite PC in *. rewrite Kh, Kt in E.
  pose proof (slots_words OK). assert (Q : s0 + (len (handled (clog s)) - 0) = s0 + len (posted (clog s))) by (apply (wrap_eq c); auto; lia).
  rewrite Kp in *. rewrite len_app in Q. assert (Z0 : len rest = 0) by lia. destruct rest; [rewrite app_nil_r; auto|discriminate].
Qed.
(** The kernel can post again as soon as complete has returned: room is given back. *)
Theorem completion_ring_room c s0 e s v : ok c -> creach c s0 e s -> cpcs s = CIdle -> len (posted (clog s)) - len (handled (clog s)) < slots c -> exists s', cstep c (LPost v) s = Some s'.
Proof.
  intros OK R PC L. destruct (kinv_reach OK R) as [Kh Kt Kd Kl Kr _ _ _ _ _]. unfold held in *. rewrite PC in *. simpl.
  pose proof (slots_words OK). rewrite Kh, Kt, wrap_diff by lia. destruct (Z.ltb_spec (s0 + len (posted (clog s)) - (s0 + (len (handled (clog s)) - 0))) (slots c)); [eauto|lia].
Qed.

(** ** Examples *)
(** A ring of two slots with indices about to wrap around: three tasks, one ready, one left pending. *)
Example ex_submit : option_map (fun s => (slog s, shead s, stail s))
  (srun (mkc 32 1) ([LSubmit [mkt 5 false false; mkt 6 true false; mkt 7 false false; mkt 8 false false] 9 false] ++ repeat LStep 7 ++ [LTake]) (sinit (mkc 32 1) 4294967295 (fun _ => 9) (fun _ => 9)))
  = Some ([ETake 5; ERet 2 [mkt 8 false false] [mkt 6 true false]; EAcc (mkt 7 false false); EAcc (mkt 5 false false);
           ECall [mkt 5 false false; mkt 6 true false; mkt 7 false false; mkt 8 false false] 9 false], 0, 1).
Proof. vm_compute. reflexivity. Qed.
Example ex_complete : option_map (fun s => (clog s, chead s, ctail s))
  (crun (mkc 32 1) [LPost 5; LEnter; LCont; LCont; LPost 6; LRead; LCont; LCont; LCont; LRead; LCont; LCont; LCont] (cinit (mkc 32 1) 4294967295 (fun _ => 9)))
  = Some ([EDone 2; ERead 6; EHandle 6; ERead 5; EPost 6; EHandle 5; EEnter; EPost 5], 1, 1).
Proof. vm_compute. reflexivity. Qed.
