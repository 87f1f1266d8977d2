(** * AtomicQueueProperties: C23 (the lock-free intrusive queues).

    [contents l]: the abstract queue after history l (newest event first): a push puts its nodes in
    front, a take empties it. *)
From Coq Require Import List Arith Bool Lia ZArith.
From Verif Require Import Conc QueueModel QueueSpec QueueProofs AtomicQueueModel AtomicQueueProofs.
Import ListNotations.
Set Implicit Arguments.
#[local] Arguments Z.add : simpl never.
#[local] Arguments Z.sub : simpl never.
#[local] Arguments Z.of_nat : simpl never.

Definition mine (t : tid) (e : event) : Prop :=
  match e with ETake u | EPop u _ _ => t = u | _ => False end.

(** t's latest take was made when the history was l1 *)
Definition last_take (t : tid) (l l1 : list event) : Prop :=
  exists l2, l = l2 ++ ETake t :: l1 /\ forall e, In e l2 -> ~ mine t e.

Record hist (s : state) : Prop := {
  h_push : forall l2 t l we l1, log s = l2 ++ EPush t l we :: l1 -> (we = true <-> contents l1 = []);
  h_pop : forall l2 t r l l1, log s = l2 ++ EPop t r l :: l1 ->
     exists l0, last_take t l1 l0 /\ l = if r then rev (contents l0) else contents l0;
  h_taken : forall t r p g, nth_error (thr s) t = Some (PTaken r p g) ->
     exists l0, last_take t (log s) l0 /\ g = contents l0 }.

Lemma cons_split (A : Type) (e : A) l l2 x l1 : e :: l = l2 ++ x :: l1 ->
  (l2 = [] /\ e = x /\ l = l1) \/ exists l2', l2 = e :: l2' /\ l = l2' ++ x :: l1.
Proof. destruct l2; simpl; intros H; inversion H; subst; eauto. Qed.

Lemma last_take_cons t e l l1 : ~ mine t e -> last_take t l l1 -> last_take t (e :: l) l1.
Proof.
  intros N [l2 [-> H]]. exists (e :: l2). split; auto. intros x [<-|Hx]; auto.
Qed.

Lemma hist_quiet s s' t p p' : hist s -> nth_error (thr s) t = Some p ->
  thr s' = upd (thr s) t p' -> log s' = log s -> (forall r q g, p' <> PTaken r q g) -> hist s'.
Proof.
  intros [A B C] Ht E1 E2 N. constructor; rewrite ?E2; auto.
  intros u r q g Hu. rewrite E1 in Hu. rewrite (nth_upd _ _ _ _ Ht) in Hu.
  destruct (t =? u); [inversion Hu; subst; edestruct N; eauto|eauto].
Qed.

Ltac sev := simpl; intros; try discriminate; try tauto; try congruence;
  try (match goal with K : EPush _ _ _ = EPush _ _ _ |- _ => inversion K; subst; auto end).

Theorem hist_reach s : reachable s -> hist s.
Proof.
  induction 1 as [n h|s t a s' Hr IH H].
  { constructor; simpl; try (intros [|]; discriminate).
    intros t r p g H. apply nth_repeat_some in H. discriminate. }
  pose proof (inv_reach Hr) as I. unfold step in H.
  assert (EV : forall p p' e nx hd b g, nth_error (thr s) t = Some p ->
     (forall u, mine u e -> u = t) ->
     (forall l we, e = EPush t l we -> (we = true <-> contents (log s) = [])) ->
     (forall u l we, e = EPush u l we -> u = t) ->
     (forall u r l, e = EPop u r l -> u = t /\ exists l0, last_take t (log s) l0 /\
          l = if r then rev (contents l0) else contents l0) ->
     (forall r q g0, p' = PTaken r q g0 -> e = ETake t /\ g0 = contents (log s)) ->
     hist {| head := hd; nxt := nx; thr := upd (thr s) t p'; log := e :: log s; busy := b; ghost := g |}).
  { intros p p' e nx hd b g Ht M P1 P2 Q T. destruct IH as [A B C]. constructor; simpl.
    - intros l2 u l we l1 E. apply cons_split in E. destruct E as [[_ [E <-]]|[l2' [_ E]]]; eauto.
      subst. pose proof (P2 _ _ _ eq_refl). subst u. eauto.
    - intros l2 u r l l1 E. apply cons_split in E. destruct E as [[_ [E <-]]|[l2' [_ E]]]; eauto.
      subst. destruct (Q _ _ _ eq_refl) as [-> [l0 [Q1 Q2]]]. eauto.
    - intros u r q g0 Hu. rewrite (nth_upd _ _ _ _ Ht) in Hu. destruct (Nat.eqb_spec t u) as [->|N].
      + inversion Hu; subst. destruct (T _ _ _ eq_refl) as [-> ->]. exists (log s). split; auto.
        exists []. split; auto.
      + destruct (C _ _ _ _ Hu) as [l0 [C1 C2]]. exists l0. split; auto.
        apply last_take_cons; auto. intros K. apply M in K. congruence. }
  assert (EMP : forall old, ptr_eqb (head s) old = true -> (is_null old = true <-> contents (log s) = [])).
  { intros old E. apply ptr_eqb_eq in E. subst old. rewrite <- (i_ghost I).
    rewrite (@lseg_head _ _ _ (i_chain I)). destruct (ghost s); simpl; split; congruence. }
  destruct a;
    try (destruct (nth_error (thr s) t) as [p|] eqn:Ht; [|discriminate]; destruct p; try discriminate);
    repeat match type of H with
    | (if ?c then _ else _) = Some _ => destruct c eqn:?; try discriminate
    end;
    try (inversion H; subst; clear H; eapply hist_quiet; eauto; simpl; auto; intros; discriminate);
    try (inversion H; subst; clear H; eapply hist_quiet; eauto; simpl; auto; discriminate);
    try (inversion H; subst; clear H; eapply EV; eauto; sev;
         match goal with
         | K : EPush _ _ _ = _ |- _ => apply EMP; auto
         | K : PTaken _ _ _ = _ |- _ => inversion K; subst; split; auto; apply (i_ghost I)
         end; fail).
  - destruct (store (nxt s) (last_ptr l) old); [|discriminate].
    inversion H; subst; clear H; eapply hist_quiet; eauto; simpl; auto; discriminate.
  - pose proof (i_pc I _ Ht) as L. pose proof (own_nodup I _ Ht) as D. simpl in L, D.
    fold (detach r fuel (nxt s) p) in H.
    destruct (detach r fuel (nxt s) p) as [[h' q]|] eqn:E1; [|discriminate].
    destruct (iterate fuel h' q (ibegin q)) as [l|] eqn:E2; [|discriminate].
    inversion H; subst; clear H.
    destruct (@detach_any _ _ _ _ _ _ _ _ L D E1 E2) as [-> F].
    destruct (h_taken IH _ Ht) as [l0 [T1 T2]].
    eapply EV; eauto; sev.
    match goal with K : EPop _ _ _ = _ |- _ => inversion K; subst end. split; auto. exists l0. split; auto.
  - inversion H; subst; clear H. destruct IH as [A B C]. constructor; auto.
Qed.

Lemma fail_reach s : reachable s -> forall l2 t l we l1,
  log s = l2 ++ EFail t l we :: l1 -> (we = true <-> contents l1 = []).
Proof.
  induction 1 as [n h|s t a s' Hr IH H].
  { simpl. intros [|]; discriminate. }
  pose proof (inv_reach Hr) as I. intros l2 u l we l1 E. unfold step in H.
  assert (EMP : is_null (head s) = true <-> contents (log s) = []).
  { rewrite <- (i_ghost I).
    rewrite (@lseg_head _ _ _ (i_chain I)). destruct (ghost s); simpl; split; congruence. }
  destruct a;
    try (destruct (nth_error (thr s) t) as [p|] eqn:Ht; [|discriminate]; destruct p; try discriminate);
    repeat match type of H with
    | (if ?c then _ else _) = Some _ => destruct c eqn:?; try discriminate
    | match ?c with KPush => _ | KTry => _ end = Some _ => destruct c
    | match store ?a ?b ?c with _ => _ end = Some _ => destruct (store a b c); try discriminate
    | match ?c with Some _ => _ | None => None end = Some _ => destruct c as [[? ?]|]; try discriminate
    | match ?c with Some _ => _ | None => None end = Some _ => destruct c; try discriminate
    end;
    inversion H; subst s'; clear H; simpl in E; eauto;
    apply cons_split in E; destruct E as [[_ [E <-]]|[l2' [_ E]]]; try discriminate; eauto.
  inversion E; subst. exact EMP.
Qed.

(** ** C23 *)

(** a failed try_push_front reports truthfully whether the queue is empty *)
Theorem C23_failed_push_reports_empty : forall s l2 t l we l1, reachable s ->
  log s = l2 ++ EFail t l we :: l1 -> (we = true <-> contents l1 = []).
Proof. intros. eapply fail_reach; eauto. Qed.

(** push reports truthfully whether the queue was empty *)
Theorem C23_push_reports_empty : forall s l2 t l we l1, reachable s ->
  log s = l2 ++ EPush t l we :: l1 -> (we = true <-> contents l1 = []).
Proof. intros. eapply h_push; eauto using hist_reach. Qed.

(** a pop returns exactly what the queue contained when it emptied it: most recent push first, or
    (pop_all of the stdexec queue, pop_all_reversed) oldest push first *)
Theorem C23_pop_returns_contents : forall s l2 t r l l1, reachable s ->
  log s = l2 ++ EPop t r l :: l1 ->
  exists l0, last_take t l1 l0 /\ l = if r then rev (contents l0) else contents l0.
Proof. intros. eapply h_pop; eauto using hist_reach. Qed.

(** the linked structure always is the abstract queue *)
Theorem C23_structure : forall s, reachable s ->
  lseg (nxt s) (head s) (contents (log s)) None /\ NoDup (contents (log s)).
Proof.
  intros s R. pose proof (inv_reach R) as I. rewrite <- (i_ghost I). split; [apply (i_chain I)|].
  apply (ghost_nodup I).
Qed.

(** conservation: every push of a node is delivered by exactly one pop, or still in the queue, or in
    the hands of a pop that has emptied the queue and not returned yet *)
Fixpoint pushes (x : nat) (l : list event) : Z :=
  match l with [] => 0 | EPush _ k _ :: l => zcnt x k + pushes x l | _ :: l => pushes x l end.
Fixpoint pops (x : nat) (l : list event) : Z :=
  match l with [] => 0 | EPop _ _ k :: l => zcnt x k + pops x l | _ :: l => pops x l end.
Definition in_hand (x : nat) (p : pc) : Z := match p with PTaken _ _ g => zcnt x g | _ => 0 end.

Lemma zcnt_rev x l : zcnt x (rev l) = zcnt x l.
Proof. unfold zcnt. rewrite cnt_rev; auto. Qed.

Theorem C23_conservation : forall s x, reachable s ->
  (pushes x (log s) = pops x (log s) + zcnt x (contents (log s)) + sumz (in_hand x) (thr s))%Z.
Proof.
  intros s x R. induction R as [n h|s t a s' Hr IH H].
  { simpl. rewrite sumz_repeat; auto. }
  pose proof (inv_reach Hr) as I. unfold step in H.
  destruct a;
    try (destruct (nth_error (thr s) t) as [p|] eqn:Ht; [|discriminate];
         pose proof (fun q => sumz_upd (in_hand x) (thr s) t q Ht) as S; destruct p; try discriminate);
    repeat match type of H with
    | (if ?c then _ else _) = Some _ => destruct c eqn:?; try discriminate
    end;
    try (inversion H; subst; clear H; simpl; rewrite S; simpl; rewrite ?zcnt_app, ?zcnt_nil;
         rewrite <- ?(i_ghost I) in *; lia).
  - destruct (store (nxt s) (last_ptr l) old); [|discriminate].
    inversion H; subst; clear H; simpl; rewrite S; simpl; lia.
  - pose proof (i_pc I _ Ht) as L. pose proof (own_nodup I _ Ht) as D. simpl in L, D.
    fold (detach r fuel (nxt s) p) in H.
    destruct (detach r fuel (nxt s) p) as [[h' q]|] eqn:E1; [|discriminate].
    destruct (iterate fuel h' q (ibegin q)) as [l|] eqn:E2; [|discriminate].
    inversion H; subst; clear H. destruct (@detach_any _ _ _ _ _ _ _ _ L D E1 E2) as [-> F].
    simpl. rewrite S. simpl. destruct r; rewrite ?zcnt_rev; lia.
  - inversion H; subst; clear H; simpl; auto.
Qed.

(** when no call is in progress: delivered exactly once or still queued *)
Theorem C23_exactly_once_at_rest : forall s x, reachable s ->
  (forall t p, nth_error (thr s) t = Some p -> p = Idle) ->
  (pushes x (log s) = pops x (log s) + zcnt x (contents (log s)))%Z.
Proof.
  intros s x R Hi. rewrite (C23_conservation x R). rewrite (sumz_zero (in_hand x)); [lia|].
  intros p Hp. apply In_nth_error in Hp. destruct Hp as [n Hn]. rewrite (Hi _ _ Hn); auto.
Qed.

(** no call gets stuck (no null pointer is dereferenced, no endless chain is walked) *)
Theorem C23_never_stuck : forall s t p, reachable s -> nth_error (thr s) t = Some p -> p <> Idle ->
  exists fuel s', step t (AStep fuel) s = Some s'.
Proof.
  intros s t p R Ht N. pose proof (inv_reach R) as I. pose proof (i_pc I _ Ht) as O.
  pose proof (own_nodup I _ Ht) as D. unfold step. rewrite Ht.
  destruct p; try congruence; try (exists 0; eexists; reflexivity).
  - destruct O as [O1 [r O2]]. destruct (@relink_last _ _ _ _ old O1 D O2) as [h' [E _]].
    exists 0. rewrite E. eexists; reflexivity.
  - exists 0. destruct k, (ptr_eqb (head s) old); eexists; reflexivity.
  - exists 0. destruct (ptr_eqb (head s) old); eexists; reflexivity.
  - simpl in O, D. destruct (@detach_ok r _ _ _ O D (length g) (Nat.le_refl (length g))) as [h' [q [E1 [E2 _]]]].
    exists (length g). fold (detach r (length g) (nxt s) p). rewrite E1, E2. eexists; reflexivity.
Qed.

(** ** Concrete run: two pushers race, a pop takes both, a node is pushed again between another
    pusher's load and its CAS (ABA), prepend of two nodes *)
Fixpoint runs (l : list (tid * action)) (s : state) : option state :=
  match l with
  | [] => Some s
  | (t, a) :: l => match step t a s with Some s' => runs l s' | None => None end
  end.
Lemma runs_reachable l : forall s s', reachable s -> runs l s = Some s' -> reachable s'.
Proof.
  induction l as [|[t a] l IH]; simpl; intros s s' Hr H; [inversion H; subst; auto|].
  destruct (step t a s) eqn:E; [|discriminate]. eapply (IH s0); [econstructor; eauto|exact H].
Qed.

Definition S_ (t : tid) := (t, AStep 9).
Definition demo : list (tid * action) :=
  [(0, APush 5); (1, APush 6); S_ 0; S_ 1; S_ 0; S_ 1; S_ 0; S_ 1; S_ 1; S_ 1;  (* 5, then 6 *)
   (1, APush 7); S_ 1; S_ 1;                                  (* 7 has read head = 6 *)
   (2, APopAllX); S_ 2; S_ 2;                                 (* returns 5, 6 *)
   (0, APush 6); S_ 0; S_ 0; S_ 0; S_ 1;                      (* 6 again; the CAS of 7 succeeds *)
   (0, AWrite 8 (Some 9)); (0, APrepend [8; 9]); S_ 0; S_ 0; S_ 0;
   (2, APopAll false); S_ 2; S_ 2; S_ 2].
Example demo_history :
  option_map (fun s => rev (log s)) (runs demo (init 3 (fun _ => None))) = Some
  [EPush 0 [5] true; EPush 1 [6] false; ETake 2; EPop 2 true [5; 6]; EPush 0 [6] true;
   EPush 1 [7] false; EPush 0 [8; 9] false; ETake 2; EPop 2 false [8; 9; 7; 6]].
Proof. reflexivity. Qed.

Print Assumptions C23_push_reports_empty.
Print Assumptions C23_pop_returns_contents.
Print Assumptions C23_structure.
Print Assumptions C23_conservation.
Print Assumptions C23_exactly_once_at_rest.
Print Assumptions C23_never_stuck.
Print Assumptions C23_failed_push_reports_empty.
