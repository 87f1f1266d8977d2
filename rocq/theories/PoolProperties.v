(** * C38: static_thread_pool workers do not sleep on queued work; tasks are executed once *)

From Coq Require Import List Arith Bool ZArith Lia Permutation.
From Verif Require Import Conc PoolModel.
Import ListNotations.
Set Implicit Arguments.
Arguments Z.add : simpl never.
Arguments Z.sub : simpl never.
Arguments Z.of_nat : simpl never.
Arguments Nat.modulo : simpl never.
Arguments Nat.leb : simpl never.
Arguments Nat.ltb : simpl never.

(** ** Specification *)
(** some thread is inside notify()/request_stop() for worker w, at the given point *)
Definition has (s : state) (w : nat) (ph : nphase) : Prop :=
  exists a v, nth_error (notes s) a = Some v /\ cur v = Some (w, ph).
Definition asleep (s : state) (w : nat) : Prop := nth_error (pcs s) w = Some Waiting.
(** no thread is about to wake it up *)
Definition no_wakeup (s : state) (w : nat) : Prop := forall ph, ~ has s w ph.
(** worker w has no task in any of its queues *)
Definition no_work (s : state) (w : nat) : Prop :=
  (forall q, queue s q w = []) /\ forall k, nth_error (ws s) w = Some k -> loc k = [] /\ pend k = [].
Definition submitted (t : task) (l : list event) : Prop := exists w, In (ESubmit t w) l.
Definition executions (t : task) (l : list event) : nat :=
  cnt (fun e => match e with EExec _ u _ => u =? t | _ => false end) l.

Section Params.
Variable n : nat.
Notation step := (step n).
Notation reachable := (reachable n).

(** ** the synchronisation invariant *)
Definition window (p : pc) : bool :=
  match p with Poll true _ _ | Move true | PopAfter true | SetSleep | PreWait | Waiting => true | _ => false end.
Definition polled (p : pc) (q : nat) : Prop :=
  match p with Poll true L _ => ~ In q L | Move true | PopAfter true | SetSleep | PreWait | Waiting => True | _ => False end.
Definition idle_loc (p : pc) (k : wk) : Prop :=
  match p with
  | Poll _ _ _ => loc k = []
  | Move _ => loc k = [] /\ pend k <> []
  | SetSteal | Stealing | Clear None | Lock | Cas | SetSleep | PreWait | Waiting => loc k = [] /\ pend k = []
  | PopAfter _ => 1 <= own k
  | _ => True
  end.
Record okw (s : state) (w : nat) (p : pc) (k : wk) : Prop := {
  o_st : window p = true -> st k <> Running;
  o_not : window p = true -> st k = Notified -> has s w N1 \/ (p = Waiting /\ has s w N2);
  o_rem : forall q t, polled p q -> In (q, w, t) (rem s) -> st k = Notified \/ has s w N0;
  o_own : own k <= length (loc k);
  o_loc : idle_loc p k;
  o_stop : holds p = true -> stop k = false;
  o_stop' : p = Waiting -> stop k = true -> has s w N2;
  o_exit : p = Exit -> stop k = true;
  o_note : holds p = true -> forall v, nth_error (notes s) w = Some v -> cur v = None }.

Record inv (s : state) : Prop := {
  i_len : length (ws s) = n;
  i_len2 : length (pcs s) = length (notes s);
  i_len3 : n <= length (pcs s);
  i_ext : forall a p, nth_error (pcs s) a = Some p -> (p = Ext <-> n <= a);
  i_nq : forall q w t, In (q, w, t) (rem s) -> q < nq s /\ w < n;
  i_notes : forall a v, nth_error (notes s) a = Some v -> (forall w ph, cur v = Some (w, ph) -> w < n) /\ Forall (fun w => w < n) (more v);
  i_w : forall w p k, nth_error (pcs s) w = Some p -> nth_error (ws s) w = Some k -> okw s w p k }.

Lemma main_spec s a p : main s a = Some p -> nth_error (pcs s) a = Some p /\
  exists v, nth_error (notes s) a = Some v /\ cur v = None.
Proof.
  unfold main. destruct (nth_error (pcs s) a); [|discriminate]. destruct (nth_error (notes s) a) as [v|]; [|discriminate].
  destruct (cur v) eqn:E; [discriminate|]. intros H. injection H as ->. eauto.
Qed.

Lemma okw_mono s s' w p k : okw s w p k ->
  (forall ph, has s w ph -> has s' w ph) ->
  (forall q t, In (q, w, t) (rem s') -> In (q, w, t) (rem s)) ->
  (holds p = true -> nth_error (notes s') w = nth_error (notes s) w) ->
  okw s' w p k.
Proof.
  intros O H R N. destruct O. constructor; auto.
  - intros W E. destruct (o_not0 W E) as [|[]]; auto.
  - intros q t P I. destruct (o_rem0 q t P (R _ _ I)); auto.
  - intros Hh. rewrite N by auto. auto.
Qed.

(** adding a note to a thread that had none *)
Lemma has_note s s' a v v' w ph : nth_error (notes s) a = Some v -> cur v = None -> notes s' = upd (notes s) a v' ->
  has s w ph -> has s' w ph.
Proof.
  intros E C U (b & u & Hb & Hu). exists b, u. split; auto. rewrite U, (nth_upd _ _ _ _ E).
  destruct (Nat.eqb_spec a b); auto. subst. congruence.
Qed.
Lemma has_note_new s s' a v v' w ph : nth_error (notes s) a = Some v -> notes s' = upd (notes s) a v' -> cur v' = Some (w, ph) -> has s' w ph.
Proof. intros E U C. exists a, v'. split; auto. rewrite U. rewrite (nth_upd _ _ _ _ E), Nat.eqb_refl. auto. Qed.

(** a worker's own step: its program counter, its own thread_state, taking tasks from its own remote
    queues, and possibly beginning a notify *)
Lemma inv_worker s s' w p v p' k k' v' : inv s ->
  nth_error (pcs s) w = Some p -> nth_error (ws s) w = Some k ->
  nth_error (notes s) w = Some v -> cur v = None ->
  pcs s' = upd (pcs s) w p' -> ws s' = upd (ws s) w k' -> notes s' = upd (notes s) w v' ->
  nq s' = nq s ->
  p' <> Ext ->
  (forall q x t, In (q, x, t) (rem s') -> In (q, x, t) (rem s)) ->
  (v' = v \/ exists l, v' = notify_list l /\ Forall (fun x => x < n) l) ->
  okw s' w p' k' ->
  inv s'.
Proof.
  intros I Ep Ek Ev Cv Up Uk Un Uq Np Ur Hv O.
  assert (Hw : w < n) by (rewrite <- (i_len I); apply nth_error_Some; congruence).
  constructor.
  - rewrite Uk, upd_length. apply I.
  - rewrite Up, Un, !upd_length. apply I.
  - rewrite Up, upd_length. apply I.
  - intros a q Ha. rewrite Up, (nth_upd _ _ _ _ Ep) in Ha. destruct (Nat.eqb_spec w a) as [<-|N].
    + injection Ha as <-. split; [intros; congruence|intros; lia].
    + apply (i_ext I _ Ha).
  - intros q x t H. rewrite Uq. apply (i_nq I _ _ _ (Ur _ _ _ H)).
  - intros a u Ha. rewrite Un, (nth_upd _ _ _ _ Ev) in Ha. destruct (Nat.eqb_spec w a) as [<-|N].
    + injection Ha as <-. destruct Hv as [-> |(l & -> & F)]; [apply (i_notes I _ Ev)|].
      destruct F as [|x l Hx F]; simpl; split; auto; try discriminate; intros y ph H; injection H as <- <-; auto.
    + apply (i_notes I _ Ha).
  - intros x q c Hp Hk. rewrite Up, (nth_upd _ _ _ _ Ep) in Hp. rewrite Uk, (nth_upd _ _ _ _ Ek) in Hk.
    destruct (Nat.eqb_spec w x) as [<-|N].
    + injection Hp as <-. injection Hk as <-. auto.
    + eapply okw_mono; [apply (i_w I _ Hp Hk)| | |].
      * intros ph. eapply has_note; eauto.
      * intros q' t. apply Ur.
      * intros _. rewrite Un, (nth_upd _ _ _ _ Ev). destruct (Nat.eqb_spec w x); congruence.
Qed.
Lemma upd_same {A} (l : list A) i x : nth_error l i = Some x -> upd l i x = l.
Proof. revert i. induction l; destruct i; simpl; intros H; try discriminate; auto. - injection H as ->. auto. - f_equal. auto. Qed.

Lemma has_eq s s' w ph : notes s' = notes s -> has s' w ph = has s w ph.
Proof. intros E. unfold has. rewrite E. auto. Qed.

(** the same for a step that leaves the notes alone *)
Lemma inv_own s s' w p p' k k' : inv s ->
  main s w = Some p -> nth_error (ws s) w = Some k ->
  pcs s' = upd (pcs s) w p' -> ws s' = upd (ws s) w k' -> notes s' = notes s ->
  nq s' = nq s -> p' <> Ext ->
  (forall q x t, In (q, x, t) (rem s') -> In (q, x, t) (rem s)) ->
  (okw s w p k -> (forall v, nth_error (notes s) w = Some v -> cur v = None) ->
   (forall ph, has s' w ph = has s w ph) -> okw s' w p' k') ->
  inv s'.
Proof.
  intros I M Ek Up Uk Un Uq Np Ur O. destruct (main_spec _ _ M) as (Ep & v & Ev & Cv).
  eapply inv_worker with (v := v) (v' := v); eauto.
  - rewrite upd_same; auto.
  - apply O; [apply (i_w I _ Ep Ek)| |].
    + intros u Hu. congruence.
    + intros ph. apply has_eq; auto.
Qed.
(** ... and the thread_state alone *)
Lemma inv_pc s s' w p p' k : inv s ->
  main s w = Some p -> nth_error (ws s) w = Some k ->
  pcs s' = upd (pcs s) w p' -> ws s' = ws s -> notes s' = notes s ->
  nq s' = nq s -> p' <> Ext -> rem s' = rem s ->
  (okw s w p k -> (forall v, nth_error (notes s) w = Some v -> cur v = None) ->
   (forall ph, has s' w ph = has s w ph) -> okw s' w p' k) ->
  inv s'.
Proof.
  intros I M Ek Up Uk Un Uq Np Ur O. eapply inv_own with (k := k) (k' := k); eauto.
  - rewrite upd_same; auto.
  - rewrite Ur. auto.
Qed.
Lemma wk_of s w p : inv s -> nth_error (pcs s) w = Some p -> p <> Ext -> exists k, nth_error (ws s) w = Some k.
Proof.
  intros I E N. destruct (nth_error (ws s) w) eqn:X; eauto. apply nth_error_None in X. rewrite (i_len I) in X.
  apply (i_ext I _ E) in X. congruence.
Qed.
Lemma cand_lt w start : 0 < n -> Forall (fun x => x < n) (candidates n w start).
Proof.
  intros H. apply Forall_forall. intros x Hx. apply filter_In in Hx. destruct Hx as [Hx _]. apply in_map_iff in Hx.
  destruct Hx as (i & <- & _). apply Nat.mod_upper_bound. lia.
Qed.

Ltac kk := constructor; simpl; try discriminate; try tauto; auto; try (intros; discriminate).

(** a thread goes on with its notify *)
Lemma inv_notify s s' a v v' w ph : inv s -> nth_error (notes s) a = Some v -> cur v = Some (w, ph) ->
  notes s' = upd (notes s) a v' -> nq s' = nq s -> rem s' = rem s ->
  length (ws s') = length (ws s) -> length (pcs s') = length (pcs s) ->
  (forall b p, nth_error (pcs s') b = Some p -> (p = Ext <-> n <= b)) ->
  (forall x ph, cur v' = Some (x, ph) -> x < n) -> Forall (fun x => x < n) (more v') ->
  (forall x, x <> w -> nth_error (pcs s') x = nth_error (pcs s) x /\ nth_error (ws s') x = nth_error (ws s) x) ->
  (forall p k p' k', nth_error (pcs s) w = Some p -> nth_error (ws s) w = Some k ->
     nth_error (pcs s') w = Some p' -> nth_error (ws s') w = Some k' ->
     okw s w p k -> (forall u x, nth_error (notes s') x = Some u -> x <> a -> nth_error (notes s) x = Some u) -> 
     (forall q, (q <> ph -> has s w q -> has s' w q)) -> okw s' w p' k') ->
  inv s'.
Proof.
  intros I Ev Cv Un Uq Ur Lw Lp Ex Ns Nm Oth Self.
  assert (Hw : w < n) by (apply (i_notes I _ Ev) in Cv; auto).
  assert (HN : forall u x, nth_error (notes s') x = Some u -> x <> a -> nth_error (notes s) x = Some u).
  { intros u x Hx Nx. rewrite Un, (nth_upd _ _ _ _ Ev) in Hx. destruct (Nat.eqb_spec a x); congruence. }
  assert (HH : forall x q, (x, q) <> (w, ph) -> has s x q -> has s' x q).
  { intros x q Nx (b & u & Hb & Hu). exists b, u. split; auto. rewrite Un, (nth_upd _ _ _ _ Ev). destruct (Nat.eqb_spec a b); auto. congruence. }
  constructor.
  - rewrite Lw. apply I.
  - rewrite Lp, Un, upd_length. apply I.
  - rewrite Lp. apply I.
  - auto.
  - rewrite Uq, Ur. apply I.
  - intros b u Hb. rewrite Un, (nth_upd _ _ _ _ Ev) in Hb. destruct (Nat.eqb_spec a b) as [<-|N].
    + injection Hb as <-. auto.
    + apply (i_notes I _ Hb).
  - intros x p k Hp Hk. destruct (Nat.eq_dec x w) as [->|N].
    + destruct (nth_error (pcs s) w) as [p0|] eqn:E1; [|apply nth_error_None in E1; pose proof (i_len3 I); lia].
      destruct (nth_error (ws s) w) as [k0|] eqn:E2; [|apply nth_error_None in E2; rewrite (i_len I) in E2; lia].
      eapply Self; eauto. apply (i_w I _ E1 E2). intros q Nq. apply HH. congruence.
    + destruct (Oth x N) as [E1 E2]. rewrite E1 in Hp. rewrite E2 in Hk.
      eapply okw_mono; [apply (i_w I _ Hp Hk)| | |].
      * intros q. apply HH. congruence.
      * rewrite Ur. auto.
      * intros Hh. rewrite Un, (nth_upd _ _ _ _ Ev). destruct (Nat.eqb_spec a x) as [->|]; auto.
        pose proof (o_note (i_w I _ Hp Hk) Hh Ev). congruence.
Qed.
(** a thief takes a task *)
Lemma inv_steal s w k t r : inv s -> nth_error (ws s) w = Some k -> own k < length (loc k) -> loc k = t :: r ->
  inv (s_wk s w (w_loc k r (own k))).
Proof.
  intros I Ek L El. rewrite El in L. simpl in L. constructor; simpl; try apply I.
  - rewrite upd_length. apply I.
  - intros x p c Hp Hc. rewrite (nth_upd _ _ _ _ Ek) in Hc. destruct (Nat.eqb_spec w x) as [<-|N].
    + injection Hc as <-. destruct (i_w I _ Hp Ek). constructor; simpl; auto; [lia|].
      destruct p as [| | | | | | |[[? ?]|]| | | | | | | | | | |]; simpl in *; auto; try (exfalso; intuition congruence); try congruence.
    + eapply okw_mono; [apply (i_w I _ Hp Hc)| | |]; simpl; auto.
Qed.
(** tasks are pushed to remote queue q of worker w *)
Lemma inv_push s s' a v v' q w (new : list task) : inv s -> nth_error (notes s) a = Some v -> cur v = None ->
  (forall p, nth_error (pcs s) a = Some p -> holds p = false) ->
  pcs s' = pcs s -> ws s' = ws s -> nq s' = nq s -> q < nq s -> w < n ->
  notes s' = upd (notes s) a v' ->
  rem s' = map (fun t => (q, w, t)) new ++ rem s ->
  (v' = notify_list [w] \/ (v' = v /\ queue s q w <> [])) ->
  inv s'.
Proof.
  intros I Ev Cv Hh Up Uw Uq Lq Lw Un Ur Hv.
  assert (HH : forall x ph, has s x ph -> has s' x ph) by (intros; eapply has_note; eauto).
  constructor; rewrite ?Up, ?Uw, ?Uq; try apply I.
  - rewrite Un, upd_length. apply I.
  - intros q' x t H. rewrite Ur in H. apply in_app_iff in H. destruct H as [H|H]; [|apply (i_nq I _ _ _ H)].
    apply in_map_iff in H. destruct H as (y & E & _). injection E as <- <- <-. auto.
  - intros b u Hb. rewrite Un, (nth_upd _ _ _ _ Ev) in Hb. destruct (Nat.eqb_spec a b) as [<-|N].
    + injection Hb as <-. destruct Hv as [-> |[-> _]]; [|apply (i_notes I _ Ev)].
      simpl. split; auto. intros x ph E. injection E as <- <-. auto.
    + apply (i_notes I _ Hb).
  - intros x p k Hp Hk. pose proof (i_w I _ Hp Hk) as O.
    assert (O' : okw (s_rem s' (rem s)) x p k).
    { eapply okw_mono; [exact O| | |].
      - intros ph. apply HH.
      - simpl. auto.
      - simpl. intros Hx. rewrite Un, (nth_upd _ _ _ _ Ev). destruct (Nat.eqb_spec a x) as [<-|]; auto.
        rewrite (Hh _ Hp) in Hx. discriminate. }
    destruct O'. constructor; auto.
    intros q' t P H. rewrite Ur in H. apply in_app_iff in H. destruct H as [H|H]; [|apply (o_rem0 q' t P); auto].
    apply in_map_iff in H. destruct H as (y & E & _). injection E as <- <- <-.
    destruct Hv as [-> |[-> Nq]].
    + right. eapply has_note_new; eauto.
    + destruct (queue s q w) as [|z l] eqn:Eq; [congruence|].
      assert (X : In z (queue s q w)) by (rewrite Eq; left; auto). unfold queue in X. apply in_map_iff in X.
      destruct X as ([[q1 w1] z1] & Ez & X). apply filter_In in X. destruct X as [X1 X2]. unfold in_queue in X2. simpl in X2.
      apply andb_true_iff in X2. rewrite !Nat.eqb_eq in X2. destruct X2. simpl in *. subst.
      apply (o_rem0 q z P X1).
Qed.
(** a client thread is no lock holder *)
Lemma client_holds s a p : nth_error (pcs s) a = Some p -> client p = true -> forall p', nth_error (pcs s) a = Some p' -> holds p' = false.
Proof. intros E C p' E'. rewrite E in E'. injection E' as <-. destruct p; simpl in *; auto; discriminate. Qed.

Ltac ipc := eapply inv_pc; [eassumption|eassumption|eassumption|reflexivity|reflexivity|reflexivity|reflexivity| |reflexivity|].
Ltac iown := eapply inv_own; [eassumption|eassumption|eassumption|reflexivity|reflexivity|reflexivity|reflexivity| | |].

Lemma inv_step c s s' : inv s -> step c s = Some s' -> inv s'.
Proof.
  intros I H. destruct c; simpl in H.
  - (* notify *) destruct (nth_error (notes s) a) as [v|] eqn:Ev; [|discriminate].
    destruct (cur v) as [[w ph]|] eqn:Cv; [|discriminate]. destruct (i_notes I _ Ev) as [V1 V2]. pose proof (V1 _ _ Cv) as Hw.
    destruct ph.
    + destruct (nth_error (ws s) w) as [k|] eqn:Ek; [|discriminate]. injection H as <-.
      eapply inv_notify; [exact I|exact Ev|exact Cv|reflexivity|reflexivity|reflexivity| | | | | | |]; simpl; auto.
      * rewrite upd_length; auto.
      * apply I.
      * intros x ph. destruct (st k); simpl; try (intros E; injection E as <- <-; auto).
        -- destruct V2; simpl; [discriminate|]. intros E; injection E as <- <-; auto.
        -- destruct V2; simpl; [discriminate|]. intros E; injection E as <- <-; auto.
      * destruct (st k); simpl; auto; destruct V2; simpl; auto.
      * intros x N. rewrite (nth_upd _ _ _ _ Ek). destruct (Nat.eqb_spec w x); [congruence|auto].
      * intros p k0 p' k' Hp Hk Hp' Hk' O HN HH. rewrite Hp in Hp'. injection Hp' as <-. rewrite Ek in Hk. injection Hk as <-.
        rewrite (nth_upd _ _ _ _ Ek), Nat.eqb_refl in Hk'. injection Hk' as <-. destruct O. constructor; simpl; auto; try discriminate.
        -- intros W _. destruct (st k) eqn:Es.
           ++ exfalso. apply o_st0; auto.
           ++ left. eapply has_note_new; [exact Ev|reflexivity|reflexivity].
           ++ destruct (o_not0 W eq_refl) as [X|[-> X]]; [left|right; split; auto]; apply HH; auto; discriminate.
        -- intros Ew Es. apply HH; [discriminate|auto].
        -- intros Hh u Hu. rewrite (nth_upd _ _ _ _ Ev) in Hu. destruct (Nat.eqb_spec a w) as [->|]; [|eauto].
           rewrite (o_note0 Hh _ Ev) in Cv. discriminate.
    + destruct (locked s w) eqn:Lk; [discriminate|]. injection H as <-. unfold locked in Lk.
      eapply inv_notify; [exact I|exact Ev|exact Cv|reflexivity|reflexivity|reflexivity| | | | | | |]; simpl; auto.
      * apply I.
      * intros x ph E; injection E as <- <-; auto.
      * intros p k0 p' k' Hp Hk Hp' Hk' O HN HH. rewrite Hp in Hp'. injection Hp' as <-. rewrite Hk in Hk'. injection Hk' as <-.
        rewrite Hp in Lk. destruct O. constructor; simpl; auto; try discriminate.
        -- intros W Es. right. split; [|eapply has_note_new; [exact Ev|reflexivity|reflexivity]].
           destruct p; simpl in *; try discriminate; auto; destruct b; discriminate.
        -- intros q t P Hq. destruct (o_rem0 q t P Hq) as [|X]; auto. right. apply HH; auto; discriminate.
        -- intros Ew Es. apply HH; auto. discriminate.
        -- congruence.
    + injection H as <-. destruct (nth_error (pcs s) w) as [p|] eqn:Ep; [|apply nth_error_None in Ep; pose proof (i_len3 I); lia].
      assert (Q : p = Waiting \/ p <> Waiting) by (destruct p; auto; right; discriminate).
      destruct Q as [-> |Np].
      * eapply inv_notify; [exact I|exact Ev|exact Cv|reflexivity|reflexivity|reflexivity| | | | | | |]; simpl; auto.
        -- rewrite upd_length; auto.
        -- intros b p. rewrite (nth_upd _ _ _ _ Ep). destruct (Nat.eqb_spec w b) as [<-|]; [|apply I].
           intros X; injection X as <-. split; [discriminate|lia].
        -- discriminate.
        -- intros x N. rewrite (nth_upd _ _ _ _ Ep). destruct (Nat.eqb_spec w x); [congruence|auto].
        -- intros p k0 p' k' Hp Hk Hp' Hk' O HN HH. rewrite (nth_upd _ _ _ _ Ep), Nat.eqb_refl in Hp'. injection Hp' as <-.
           rewrite Hk in Hk'. injection Hk' as <-. destruct O. kk.
      * replace (match p with Waiting => s_pc s w Unsleep | _ => s end) with s by (destruct p; auto; congruence).
        eapply inv_notify; [exact I|exact Ev|exact Cv|reflexivity|reflexivity|reflexivity| | | | | | |]; simpl; auto.
        -- apply I.
        -- discriminate.
        -- intros p1 k0 p' k' Hp Hk Hp' Hk' O HN HH. rewrite Hp in Hp'. injection Hp' as <-. rewrite Hk in Hk'. injection Hk' as <-.
           rewrite Ep in Hp. injection Hp as <-. destruct O. constructor; simpl; auto; try discriminate; try congruence.
           ++ intros W Es. destruct (o_not0 W Es) as [X|[X _]]; [|congruence]. left. apply HH; auto. discriminate.
           ++ intros q t P Hq. destruct (o_rem0 q t P Hq) as [|X]; auto. right. apply HH; auto; discriminate.
           ++ intros Hh u Hu. rewrite (nth_upd _ _ _ _ Ev) in Hu. destruct (Nat.eqb_spec a w) as [->|]; [|eauto].
              injection Hu as <-. auto.
  - (* pop *) destruct (main s w) as [p|] eqn:M; try discriminate. destruct (nth_error (ws s) w) as [k|] eqn:Ek; [|destruct p; discriminate].
    destruct p; try discriminate.
    + destruct (rev (loc k)) as [|t r] eqn:R.
      * injection H as <-. ipc; try discriminate. intros [] Nt Hs. kk.
        apply (f_equal (@rev _)) in R. rewrite rev_involutive in R. auto.
      * destruct (Nat.leb_spec o (length r)); [|discriminate]. injection H as <-. iown; try discriminate; auto.
        intros [] Nt Hs. kk. rewrite rev_length. auto.
    + destruct (rev (loc k)) as [|t r] eqn:R.
      * injection H as <-. exfalso. destruct (main_spec _ _ M) as (Ep & _). pose proof (i_w I _ Ep Ek) as O.
        apply (f_equal (@length _)) in R. rewrite rev_length in R. pose proof (o_own O). pose proof (o_loc O). simpl in *. lia.
      * destruct (Nat.leb_spec o (length r)); [|discriminate]. injection H as <-. iown; try (destruct b; discriminate); auto.
        intros [] Nt Hs. destruct b; kk; rewrite rev_length; auto.
  - (* poll *) destruct (main s w) as [p|] eqn:M; try discriminate. destruct p; try discriminate.
    destruct (main_spec _ _ M) as (Ep & v & Ev & Cv). destruct (wk_of _ I Ep) as (k & Ek); [discriminate|].
    destruct qs as [|q qs].
    + rewrite Ek in H. injection H as <-. iown; try (destruct (pend k ++ acc), b; discriminate); auto.
      intros [] Nt Hs. destruct (pend k ++ acc) eqn:Eq, b; kk;
        try (intros W E; destruct (o_not0 W E) as [|[]]; [auto|discriminate]);
        try (intros q t0 _ Hq; apply (o_rem0 q t0); simpl; auto); split; auto; discriminate.
    + injection H as <-. eapply inv_own with (k := k) (k' := k); [eassumption|eassumption|eassumption|reflexivity|simpl; rewrite upd_same; auto|reflexivity|reflexivity|discriminate| |]; simpl.
      * intros q' x t Hq. apply filter_In in Hq. tauto.
      * intros [] Nt Hs. destruct b; kk.
        -- intros W E. destruct (o_not0 W E) as [|[]]; [auto|discriminate].
        -- intros q' t P Hq. apply filter_In in Hq. destruct Hq as [Hq Hq2].
           destruct (o_rem0 q' t); auto. simpl. intros [<-|]; [|tauto].
           unfold in_queue in Hq2. simpl in Hq2. rewrite !Nat.eqb_refl in Hq2. discriminate.
  - (* move *) destruct (main s w) as [p|] eqn:M; try discriminate. destruct p; try discriminate.
    destruct (nth_error (ws s) w) as [x|] eqn:Ek; [|discriminate].
    destruct ((1 <=? o) && (o <=? length (loc x ++ firstn k (pend x)))) eqn:G; [|discriminate]. injection H as <-.
    apply andb_true_iff in G. destruct G as [G1 G2]. apply Nat.leb_le in G1. apply Nat.leb_le in G2.
    iown; try discriminate; auto. intros [] Nt Hs. destruct b; kk.
    intros W E. destruct (o_not0 W E) as [|[]]; [auto|discriminate].
  - (* set steal *) destruct (main s w) as [p|] eqn:M; try discriminate. destruct p; try discriminate. injection H as <-.
    destruct (main_spec _ _ M) as (Ep & _). destruct (wk_of _ I Ep) as (k & Ek); [discriminate|].
    ipc; try discriminate. intros [] Nt Hs. kk.
  - (* steal *) destruct (main s w) as [p|] eqn:M; try discriminate. destruct p; try discriminate.
    destruct (nth_error (ws s) v) as [k|] eqn:Ek; [|discriminate].
    destruct ((own k <? length (loc k)) && negb (v =? w)) eqn:G; [|discriminate]. apply andb_true_iff in G. destruct G as [G1 G2].
    apply Nat.ltb_lt in G1. apply negb_true_iff, Nat.eqb_neq in G2.
    destruct (loc k) as [|t r] eqn:El; [discriminate|]. injection H as <-.
    assert (J : inv (s_wk s v (w_loc k r (own k)))) by (eapply inv_steal; eauto; rewrite El; auto).
    destruct (main_spec _ _ M) as (Ep & _). destruct (wk_of _ I Ep) as (kw & Ekw); [discriminate|].
    eapply inv_pc with (s := s_wk s v (w_loc k r (own k))) (k := kw); [exact J|exact M| |reflexivity|reflexivity|reflexivity|reflexivity|discriminate|reflexivity|].
    + simpl. rewrite (nth_upd _ _ _ _ Ek). destruct (Nat.eqb_spec v w); [congruence|auto].
    + intros [] Nt Hs. kk.
  - (* give up *) destruct (main s w) as [p|] eqn:M; try discriminate. destruct p; try discriminate. injection H as <-.
    destruct (main_spec _ _ M) as (Ep & _). destruct (wk_of _ I Ep) as (k & Ek); [discriminate|].
    ipc; try discriminate. intros [] Nt Hs. kk.
  - (* clear *) destruct (main s w) as [p|] eqn:M; try discriminate. destruct p; try discriminate. injection H as <-.
    destruct (main_spec _ _ M) as (Ep & v & Ev & Cv). destruct (wk_of _ I Ep) as (k & Ek); [discriminate|].
    assert (n0 : 0 < n) by (assert (w < length (ws s)) by (apply nth_error_Some; congruence); rewrite (i_len I) in *; lia).
    pose proof (i_w I _ Ep Ek) as O.
    destruct ((thieves s =? 1) && negb (active s =? 0)).
    + eapply inv_worker with (v := v) (k := k) (k' := k) (v' := notify_list (candidates n w start)); [exact I|exact Ep|exact Ek|exact Ev|exact Cv|reflexivity|simpl; rewrite upd_same; auto|reflexivity|reflexivity| |auto| |].
      * destruct r as [[? ?]|]; discriminate.
      * right. eexists. split; eauto. apply cand_lt; auto.
      * destruct O. destruct r as [[? ?]|]; kk.
    + ipc; try (destruct r as [[? ?]|]; discriminate).
      intros [] Nt Hs. destruct r as [[? ?]|]; kk.
  - (* lock *) destruct (main s w) as [p|] eqn:M; try discriminate. destruct (nth_error (ws s) w) as [k|] eqn:Ek; [|destruct p; discriminate].
    destruct p; try discriminate. injection H as <-. ipc; try (destruct (stop k); discriminate).
    intros [] Nt Hs. destruct (stop k) eqn:Es; kk.
  - (* cas *) destruct (main s w) as [p|] eqn:M; try discriminate. destruct (nth_error (ws s) w) as [k|] eqn:Ek; [|destruct p; discriminate].
    destruct p; try discriminate.
    assert (X : inv (s_pc s w Exch)) by (ipc; try discriminate; intros [] Nt Hs; kk).
    assert (Y : inv (s_pc (s_wk s w (w_st k Sleeping)) w (Poll true (rev (seq 0 (nq s))) []))).
    { clear X. iown; try discriminate; auto. intros [] Nt Hs. kk.
      - intros q t Hq Hr. destruct Hq. apply in_rev. rewrite rev_involutive. apply in_seq. destruct (i_nq I _ _ _ Hr). lia.
      - apply o_loc0. }
    destruct (st k), spurious; injection H as <-; auto.
  - (* restore *) destruct (main s w) as [p|] eqn:M; try discriminate. destruct (nth_error (ws s) w) as [k|] eqn:Ek; [|destruct p; discriminate].
    destruct p; try discriminate. injection H as <-.
    destruct (st k); (ipc; try discriminate; fail) || idtac.
    + ipc; try discriminate; intros [] Nt Hs; kk.
    + iown; try discriminate; auto; intros [] Nt Hs; kk.
    + ipc; try discriminate; intros [] Nt Hs; kk.
  - (* set sleep *) destruct (main s w) as [p|] eqn:M; try discriminate. destruct p; try discriminate. injection H as <-.
    destruct (main_spec _ _ M) as (Ep & _). destruct (wk_of _ I Ep) as (k & Ek); [discriminate|].
    ipc; try discriminate. intros [] Nt Hs. kk.
    intros W E. destruct (o_not0 W E) as [|[]]; [auto|discriminate].
  - (* wait *) destruct (main s w) as [p|] eqn:M; try discriminate. destruct p; try discriminate. injection H as <-.
    destruct (main_spec _ _ M) as (Ep & _). destruct (wk_of _ I Ep) as (k & Ek); [discriminate|].
    ipc; try discriminate. intros [] Nt Hs. kk.
    + intros _ E. rewrite o_stop0 in E by auto. discriminate.
  - (* wake *) destruct (main s w) as [p|] eqn:M; try discriminate. destruct p; try discriminate. injection H as <-.
    destruct (main_spec _ _ M) as (Ep & _). destruct (wk_of _ I Ep) as (k & Ek); [discriminate|].
    ipc; try discriminate. intros [] Nt Hs. kk.
  - (* unsleep *) destruct (main s w) as [p|] eqn:M; try discriminate. destruct p; try discriminate. injection H as <-.
    destruct (main_spec _ _ M) as (Ep & v & Ev & Cv). destruct (wk_of _ I Ep) as (k & Ek); [discriminate|].
    assert (n0 : 0 < n) by (assert (w < length (ws s)) by (apply nth_error_Some; congruence); rewrite (i_len I) in *; lia).
    pose proof (i_w I _ Ep Ek) as O.
    destruct ((active s =? 0) && (thieves s =? 0)).
    + eapply inv_worker with (v := v) (k := k) (k' := k) (v' := notify_list (candidates n w start)); [exact I|exact Ep|exact Ek|exact Ev|exact Cv|reflexivity|simpl; rewrite upd_same; auto|reflexivity|reflexivity| |auto| |].
      * discriminate.
      * right. eexists. split; eauto. apply cand_lt; auto.
      * destruct O. kk.
    + ipc; try discriminate. intros [] Nt Hs. kk.
  - (* exch *) destruct (main s w) as [p|] eqn:M; try discriminate. destruct (nth_error (ws s) w) as [k|] eqn:Ek; [|destruct p; discriminate].
    destruct p; try discriminate. injection H as <-. iown; try discriminate; auto; intros [] Nt Hs; kk.
  - (* exec *) destruct (main s w) as [p|] eqn:M; try discriminate. destruct p; try discriminate. injection H as <-.
    destruct (main_spec _ _ M) as (Ep & _). destruct (wk_of _ I Ep) as (k & Ek); [discriminate|].
    ipc; try discriminate. intros [] Nt Hs. kk.
  - (* done *) destruct (main s w) as [p|] eqn:M; try discriminate. destruct p; try discriminate. injection H as <-.
    destruct (main_spec _ _ M) as (Ep & _). destruct (wk_of _ I Ep) as (k & Ek); [discriminate|].
    ipc; try discriminate. intros [] Nt Hs. kk.
  - (* push local *) destruct (main s w) as [p|] eqn:M; try discriminate. destruct (nth_error (ws s) w) as [k|] eqn:Ek; [|destruct p; discriminate].
    destruct p; try discriminate. destruct (main_spec _ _ M) as (Ep & _).
    destruct full; [|destruct (Nat.leb_spec o (length (loc k ++ [next s]))); [|discriminate]]; injection H as <-;
    (eapply inv_own with (p' := Exec); [eassumption|eassumption|eassumption|simpl; rewrite upd_same; auto|reflexivity|reflexivity|reflexivity|discriminate|auto|]; intros [] Nt Hs; kk).
  - (* push list *) destruct (main s w) as [p|] eqn:M; try discriminate. destruct (nth_error (ws s) w) as [x|] eqn:Ek; [|destruct p; discriminate].
    destruct p; try discriminate. destruct (main_spec _ _ M) as (Ep & _). injection H as <-.
    (eapply inv_own with (p' := Exec); [eassumption|eassumption|eassumption|simpl; rewrite upd_same; auto|reflexivity|reflexivity|reflexivity|discriminate|auto|]; intros [] Nt Hs; kk).
  - (* push *) destruct (main s a) as [p|] eqn:M; try discriminate. destruct (main_spec _ _ M) as (Ep & v & Ev & Cv).
    destruct (client p && (q <? nq s) && (w <? n)) eqn:G; [|discriminate]. apply andb_true_iff in G. destruct G as [G G3].
    apply andb_true_iff in G. destruct G as [G1 G2]. apply Nat.ltb_lt in G2. apply Nat.ltb_lt in G3. injection H as <-.
    destruct (queue s q w) eqn:Eq.
    + eapply inv_push with (v' := notify_list [w]) (new := [next s]); eauto using client_holds.
    + eapply inv_push with (v' := v) (new := [next s]); eauto using client_holds; simpl.
      * rewrite upd_same; auto.
      * right. split; auto. rewrite Eq. discriminate.
  - (* prepend *) destruct (main s a) as [p|] eqn:M; try discriminate. destruct (main_spec _ _ M) as (Ep & v & Ev & Cv).
    destruct (client p && (q <? nq s) && (w <? n)) eqn:G; [|discriminate]. apply andb_true_iff in G. destruct G as [G G3].
    apply andb_true_iff in G. destruct G as [G1 G2]. apply Nat.ltb_lt in G2. apply Nat.ltb_lt in G3. injection H as <-.
    eapply inv_push with (v' := notify_list [w]) (new := seq (next s) k); eauto using client_holds.
  - (* new queue *) destruct (main s a) as [p|] eqn:M; try discriminate. destruct (client p); [|discriminate]. injection H as <-.
    constructor; simpl; try apply I.
    + intros q w t H. destruct (i_nq I _ _ _ H). lia.
    + intros w q k Hp Hk. eapply okw_mono; [apply (i_w I _ Hp Hk)| | |]; simpl; auto.
  - (* stop *) destruct (main s a) as [p|] eqn:M; try discriminate. destruct (main_spec _ _ M) as (Ep & v & Ev & Cv).
    destruct (nth_error (ws s) w) as [k|] eqn:Ek; [|discriminate]. destruct (locked s w) eqn:Lk; [discriminate|]. simpl in H.
    destruct (client p) eqn:Cl; [|discriminate]. simpl in H. injection H as <-. unfold locked in Lk.
    assert (Hw : w < n) by (rewrite <- (i_len I); apply nth_error_Some; congruence).
    assert (HH : forall x ph, has s x ph -> has (s_note (s_wk s w (w_stop k true)) a {| cur := Some (w, N2); more := [] |}) x ph)
      by (intros; eapply has_note; [exact Ev|exact Cv|reflexivity|eassumption]).
    constructor; simpl; rewrite ?upd_length; try apply I.
    + intros b u Hb. rewrite (nth_upd _ _ _ _ Ev) in Hb. destruct (Nat.eqb_spec a b) as [<-|N]; [|apply (i_notes I _ Hb)].
      injection Hb as <-. simpl. split; auto. intros x ph E. injection E as <- <-. auto.
    + intros x q c Hp Hk. rewrite (nth_upd _ _ _ _ Ek) in Hk.
      assert (Nh : holds q = true -> nth_error (upd (notes s) a {| cur := Some (w, N2); more := [] |}) x = nth_error (notes s) x).
      { intros Hx. rewrite (nth_upd _ _ _ _ Ev). destruct (Nat.eqb_spec a x) as [<-|]; auto.
        rewrite Ep in Hp. injection Hp as <-. destruct p; discriminate. }
      destruct (Nat.eqb_spec w x) as [<-|N].
      * injection Hk as <-. pose proof (i_w I _ Hp Ek) as O. rewrite Hp in Lk. destruct O. constructor; simpl; auto; try congruence.
        -- intros W E. destruct (o_not0 W E) as [X|[-> X]]; auto.
        -- intros q' t P Hq. destruct (o_rem0 q' t P Hq); auto.
        -- intros _ _. eapply has_note_new; [exact Ev|reflexivity|reflexivity].
      * eapply okw_mono; [apply (i_w I _ Hp Hk)| | |]; simpl; auto.
Qed.

Lemma inv_init m : inv (init n m).
Proof.
  assert (P : forall a p, nth_error (repeat PopLocal n ++ repeat Ext m) a = Some p -> (a < n /\ p = PopLocal) \/ (n <= a /\ p = Ext)).
  { intros a p H. destruct (Nat.lt_ge_cases a n) as [L|L].
    - rewrite nth_error_app1 in H by (rewrite repeat_length; auto). apply nth_repeat_some in H. auto.
    - rewrite nth_error_app2 in H by (rewrite repeat_length; auto). apply nth_repeat_some in H. auto. }
  constructor; simpl.
  - apply repeat_length.
  - rewrite app_length, !repeat_length. auto.
  - rewrite app_length, !repeat_length. lia.
  - intros a p H. destruct (P _ _ H) as [[? ->]|[? ->]]; split; intros; try discriminate; auto; lia.
  - tauto.
  - intros a v H. apply nth_repeat_some in H. subst. simpl. split; auto. discriminate.
  - intros w p k Hp Hk. apply nth_repeat_some in Hk. subst k.
    destruct (P _ _ Hp) as [[? ->]|[? ->]]; kk.
Qed.
Theorem inv_reach s : reachable s -> inv s.
Proof. induction 1; [apply inv_init|eapply inv_step; eauto]. Qed.

(** ** conservation of tasks *)
Definition ct (t : task) (l : list task) : Z := Z.of_nat (cnt (fun u => u =? t) l).
Definition held (p : pc) : list task :=
  match p with Poll _ _ acc => acc | Clear (Some (t, _)) => [t] | Restore t => [t] | Ready t _ => [t] | _ => [] end.
Definition wkc t (k : wk) : Z := (ct t (loc k) + ct t (pend k))%Z.
Definition pcc t (p : pc) : Z := ct t (held p).
Definition tot (t : task) (s : state) : Z :=
  (ct t (map snd (rem s)) + sumz (wkc t) (ws s) + sumz (pcc t) (pcs s) + Z.of_nat (executions t (log s)))%Z.
Definition one (t k : nat) : Z := if t <? k then 1%Z else 0%Z.
Definition conserved (s : state) : Prop := forall t, tot t s = one t (next s).

Lemma ct_nil t : ct t [] = 0%Z. Proof. reflexivity. Qed.
Lemma ct_cons t u l : ct t (u :: l) = (ct t [u] + ct t l)%Z.
Proof. unfold ct. simpl. lia. Qed.
Lemma ct_app t l m : ct t (l ++ m) = (ct t l + ct t m)%Z.
Proof. unfold ct. rewrite cnt_app. lia. Qed.
Lemma ct_rev t l : ct t (rev l) = ct t l.
Proof. unfold ct. rewrite cnt_rev. auto. Qed.
Lemma ct_seq t m : forall a, ct t (seq a m) = (one t (a + m) - one t a)%Z.
Proof.
  induction m; intros a; simpl seq.
  - rewrite Nat.add_0_r, ct_nil. lia.
  - rewrite ct_cons, IHm. replace (S a + m) with (a + S m) by lia. unfold ct, one. simpl.
    destruct (Nat.eqb_spec a t); destruct (Nat.ltb_spec t (S a)); destruct (Nat.ltb_spec t a); destruct (Nat.ltb_spec t (a + S m)); lia.
Qed.
Lemma ct_next t a : ct t [a] = (one t (a + 1) - one t a)%Z.
Proof. apply (ct_seq t 1 a). Qed.
Lemma ct_split {A} t (f : A -> bool) (g : A -> task) l :
  ct t (map g (filter (fun x => negb (f x)) l)) = (ct t (map g l) - ct t (map g (filter f l)))%Z.
Proof.
  induction l as [|x l IH]; auto. cbn [map filter]. rewrite (ct_cons t (g x) (map g l)).
  destruct (f x); cbn [negb map]; [rewrite IH, (ct_cons t (g x) (map g (filter f l)))|rewrite (ct_cons t (g x) (map g (filter _ l))), IH]; lia.
Qed.
Lemma ct_fs t m l : (ct t (firstn m l) + ct t (skipn m l))%Z = ct t l.
Proof. rewrite <- ct_app, firstn_skipn. auto. Qed.
Lemma map_snd_tag (q w : nat) (l : list task) : map snd (map (fun t => (q, w, t)) l) = l.
Proof. induction l; simpl; auto. f_equal. auto. Qed.
Lemma exe_sub t l w m : executions t (map (fun u => ESubmit u w) l ++ m) = executions t m.
Proof. induction l; simpl; auto. Qed.
Lemma rev_cons_ct t l u r : rev l = u :: r -> ct t l = (ct t [u] + ct t (rev r))%Z.
Proof. intros E. rewrite <- (rev_involutive l), E. simpl. rewrite ct_app. lia. Qed.

Lemma sumz_wk t l w k k' : nth_error l w = Some k ->
  sumz (wkc t) (upd l w k') = (sumz (wkc t) l - (ct t (loc k) + ct t (pend k)) + (ct t (loc k') + ct t (pend k')))%Z.
Proof. intros E. rewrite (@sumz_upd _ _ _ _ _ _ E). reflexivity. Qed.
Lemma sumz_pc t l w p p' : nth_error l w = Some p ->
  sumz (pcc t) (upd l w p') = (sumz (pcc t) l - ct t (held p) + ct t (held p'))%Z.
Proof. intros E. rewrite (@sumz_upd _ _ _ _ _ _ E). reflexivity. Qed.
Lemma exe_cons t a u q l : Z.of_nat (executions t (EExec a u q :: l)) = (ct t [u] + Z.of_nat (executions t l))%Z.
Proof. unfold executions, ct. simpl. lia. Qed.
Ltac sm t := simpl; repeat match goal with
  | E : nth_error (ws ?s) ?w = Some ?k |- context [sumz (wkc t) (upd (ws ?s) ?w ?k')] => rewrite (sumz_wk t _ _ k' E)
  | E : nth_error (pcs ?s) ?w = Some ?k |- context [sumz (pcc t) (upd (pcs ?s) ?w ?k')] => rewrite (sumz_pc t _ _ k' E)
  end; simpl; rewrite ?ct_app, ?ct_rev, ?ct_nil; try lia.

Lemma cons_step c s s' : conserved s -> step c s = Some s' -> conserved s'.
Proof.
  intros C H t. specialize (C t). unfold tot in *. destruct c; simpl in H.
  - destruct (nth_error (notes s) a) as [v|]; [|discriminate]. destruct (cur v) as [[w []]|]; [| | |discriminate].
    + destruct (nth_error (ws s) w) as [k|] eqn:Ek; [|discriminate]. injection H as <-. sm t.
    + destruct (locked s w); [discriminate|]. injection H as <-. exact C.
    + injection H as <-. destruct (nth_error (pcs s) w) as [[]|] eqn:Ep; try exact C. sm t.
  - destruct (main s w) as [p|] eqn:M; try discriminate. destruct (nth_error (ws s) w) as [k|] eqn:Ek; [|destruct p; discriminate].
    destruct (main_spec _ _ M) as (Ep & _). destruct p; try discriminate.
    + destruct (rev (loc k)) as [|u r] eqn:R; [|destruct (o <=? length r); [|discriminate]]; injection H as <-; sm t.
      rewrite (rev_cons_ct t _ R), ct_rev; lia.
    + destruct (rev (loc k)) as [|u r] eqn:R; [|destruct (o <=? length r); [|discriminate]]; injection H as <-; destruct b; sm t;
      rewrite (rev_cons_ct t _ R), ct_rev; lia.
  - destruct (main s w) as [p|] eqn:M; try discriminate. destruct p; try discriminate. destruct (main_spec _ _ M) as (Ep & _).
    destruct qs as [|q qs].
    + destruct (nth_error (ws s) w) as [k|] eqn:Ek; [|discriminate]. injection H as <-. sm t. destruct (pend k ++ acc), b; sm t.
    + injection H as <-. sm t. rewrite ct_split. unfold queue. lia.
  - destruct (main s w) as [p|] eqn:M; try discriminate. destruct p; try discriminate. destruct (main_spec _ _ M) as (Ep & _).
    destruct (nth_error (ws s) w) as [x|] eqn:Ek; [|discriminate].
    destruct ((1 <=? o) && (o <=? length (loc x ++ firstn k (pend x)))); [|discriminate]. injection H as <-. sm t.
    pose proof (ct_fs t k (pend x)). lia.
  - destruct (main s w) as [p|] eqn:M; try discriminate. destruct p; try discriminate. destruct (main_spec _ _ M) as (Ep & _).
    injection H as <-. sm t.
  - destruct (main s w) as [p|] eqn:M; try discriminate. destruct p; try discriminate. destruct (main_spec _ _ M) as (Ep & _).
    destruct (nth_error (ws s) v) as [k|] eqn:Ek; [|discriminate]. destruct ((own k <? length (loc k)) && negb (v =? w)); [|discriminate].
    destruct (loc k) as [|u r] eqn:El; [discriminate|]. injection H as <-. sm t. rewrite El, (ct_cons t u r). lia.
  - destruct (main s w) as [p|] eqn:M; try discriminate. destruct p; try discriminate. destruct (main_spec _ _ M) as (Ep & _).
    injection H as <-. sm t.
  - destruct (main s w) as [p|] eqn:M; try discriminate. destruct p; try discriminate. destruct (main_spec _ _ M) as (Ep & _).
    injection H as <-. destruct ((thieves s =? 1) && negb (active s =? 0)); sm t; destruct r as [[? ?]|]; simpl; rewrite ?ct_nil; lia.
  - destruct (main s w) as [p|] eqn:M; try discriminate. destruct (nth_error (ws s) w) as [k|] eqn:Ek; [|destruct p; discriminate].
    destruct (main_spec _ _ M) as (Ep & _). destruct p; try discriminate. injection H as <-. destruct (stop k); sm t.
  - destruct (main s w) as [p|] eqn:M; try discriminate. destruct (nth_error (ws s) w) as [k|] eqn:Ek; [|destruct p; discriminate].
    destruct (main_spec _ _ M) as (Ep & _). destruct p; try discriminate. destruct (st k), spurious; injection H as <-; sm t.
  - destruct (main s w) as [p|] eqn:M; try discriminate. destruct (nth_error (ws s) w) as [k|] eqn:Ek; [|destruct p; discriminate].
    destruct (main_spec _ _ M) as (Ep & _). destruct p; try discriminate. injection H as <-. destruct (st k); sm t.
  - destruct (main s w) as [p|] eqn:M; try discriminate. destruct p; try discriminate. destruct (main_spec _ _ M) as (Ep & _).
    injection H as <-. sm t.
  - destruct (main s w) as [p|] eqn:M; try discriminate. destruct p; try discriminate. destruct (main_spec _ _ M) as (Ep & _).
    injection H as <-. sm t.
  - destruct (main s w) as [p|] eqn:M; try discriminate. destruct p; try discriminate. destruct (main_spec _ _ M) as (Ep & _).
    injection H as <-. sm t.
  - destruct (main s w) as [p|] eqn:M; try discriminate. destruct p; try discriminate. destruct (main_spec _ _ M) as (Ep & _).
    injection H as <-. destruct ((active s =? 0) && (thieves s =? 0)); sm t.
  - destruct (main s w) as [p|] eqn:M; try discriminate. destruct (nth_error (ws s) w) as [k|] eqn:Ek; [|destruct p; discriminate].
    destruct (main_spec _ _ M) as (Ep & _). destruct p; try discriminate. injection H as <-. sm t.
  - destruct (main s w) as [p|] eqn:M; try discriminate. destruct p; try discriminate. destruct (main_spec _ _ M) as (Ep & _).
    injection H as <-. cbn [log s_log app]. rewrite exe_cons. sm t. rewrite Nat.add_0_r. lia.
  - destruct (main s w) as [p|] eqn:M; try discriminate. destruct p; try discriminate. destruct (main_spec _ _ M) as (Ep & _).
    injection H as <-. sm t.
  - destruct (main s w) as [p|] eqn:M; try discriminate. destruct (nth_error (ws s) w) as [k|] eqn:Ek; [|destruct p; discriminate].
    destruct (main_spec _ _ M) as (Ep & _). destruct p; try discriminate.
    destruct full; [|destruct (o <=? length (loc k ++ [next s])); [|discriminate]]; injection H as <-; sm t; rewrite ct_next; unfold executions in *; simpl; lia.
  - destruct (main s w) as [p|] eqn:M; try discriminate. destruct (nth_error (ws s) w) as [x|] eqn:Ek; [|destruct p; discriminate].
    destruct (main_spec _ _ M) as (Ep & _). destruct p; try discriminate. injection H as <-. sm t. rewrite ct_seq, exe_sub. lia.
  - destruct (main s a) as [p|] eqn:M; try discriminate. destruct (client p && (q <? nq s) && (w <? n)); [|discriminate]. injection H as <-.
    destruct (queue s q w); sm t; rewrite ct_cons, ct_next; unfold executions in *; simpl; lia.
  - destruct (main s a) as [p|] eqn:M; try discriminate. destruct (client p && (q <? nq s) && (w <? n)); [|discriminate]. injection H as <-.
    sm t. rewrite map_app, ct_app, map_snd_tag, ct_seq, exe_sub. unfold task in *. lia.
  - destruct (main s a) as [p|] eqn:M; try discriminate. destruct (client p); [|discriminate]. injection H as <-. exact C.
  - destruct (main s a) as [p|] eqn:M; try discriminate. destruct (nth_error (ws s) w) as [k|] eqn:Ek; [|discriminate].
    destruct (locked s w || negb (client p)); [discriminate|]. injection H as <-. sm t.
Qed.
Theorem cons_reach s : reachable s -> conserved s.
Proof.
  induction 1; [|eapply cons_step; eauto]. intros t. unfold tot. simpl. rewrite sumz_app, !sumz_repeat by reflexivity. reflexivity.
Qed.

(** ** the home of each task *)
Definition heldq (w : nat) (p : pc) : list (task * nat) :=
  match p with Poll _ _ acc => map (fun t => (t, w)) acc | Clear (Some x) => [x] | Restore t => [(t, w)] | Ready t q => [(t, q)] | _ => [] end.
Record homes (s : state) : Prop := {
  h_rem : forall q w t, In (q, w, t) (rem s) -> In (ESubmit t w) (log s);
  h_loc : forall w k t, nth_error (ws s) w = Some k -> In t (loc k) \/ In t (pend k) -> In (ESubmit t w) (log s);
  h_pc : forall w p t q, nth_error (pcs s) w = Some p -> In (t, q) (heldq w p) -> In (ESubmit t q) (log s);
  h_exec : forall a t q, In (EExec a t q) (log s) -> In (ESubmit t q) (log s) /\ a < n;
  h_fresh : forall t w, In (ESubmit t w) (log s) -> t < next s;
  h_once : forall t w w', In (ESubmit t w) (log s) -> In (ESubmit t w') (log s) -> w = w' }.

Lemma homes_mono s s' : homes s -> log s' = log s -> next s' = next s ->
  (forall q w t, In (q, w, t) (rem s') -> In (q, w, t) (rem s)) ->
  (forall w k t, nth_error (ws s') w = Some k -> In t (loc k) \/ In t (pend k) -> In (ESubmit t w) (log s)) ->
  (forall w p t q, nth_error (pcs s') w = Some p -> In (t, q) (heldq w p) -> In (ESubmit t q) (log s)) -> homes s'.
Proof.
  intros [] E N R W P. constructor; rewrite ?E, ?N; auto. intros q w t H. eapply h_rem0. eauto.
Qed.
(** only thread w's program counter and one thread_state change *)
Lemma homes_pc s s' w p p' : homes s -> nth_error (pcs s) w = Some p -> pcs s' = upd (pcs s) w p' ->
  log s' = log s -> next s' = next s -> rem s' = rem s ->
  (forall v k t, nth_error (ws s') v = Some k -> In t (loc k) \/ In t (pend k) -> In (ESubmit t v) (log s)) ->
  (forall t q, In (t, q) (heldq w p') -> In (ESubmit t q) (log s)) -> homes s'.
Proof.
  intros Hs Ep U L N R W P. eapply homes_mono; eauto.
  - rewrite R. auto.
  - intros x q t h Hx Hi. rewrite U, (nth_upd _ _ _ _ Ep) in Hx. destruct (Nat.eqb_spec w x) as [<-|]; [|eapply (h_pc Hs); eauto].
    injection Hx as <-. auto.
Qed.
(** the fresh tasks l are submitted to w *)
Lemma homes_sub s s' l w : homes s -> log s' = map (fun t => ESubmit t w) l ++ log s -> l = seq (next s) (length l) ->
  next s' = next s + length l ->
  (forall q x t, In (q, x, t) (rem s') -> In (q, x, t) (rem s) \/ (x = w /\ In t l)) ->
  (forall x k t, nth_error (ws s') x = Some k -> In t (loc k) \/ In t (pend k) -> In (ESubmit t x) (log s) \/ (x = w /\ In t l)) ->
  (forall x p t q, nth_error (pcs s') x = Some p -> In (t, q) (heldq x p) -> In (ESubmit t q) (log s)) -> homes s'.
Proof.
  intros Hs L Sq N R W P.
  assert (X : forall t x, In (ESubmit t x) (log s') <-> (x = w /\ In t l) \/ In (ESubmit t x) (log s)).
  { intros t x. rewrite L, in_app_iff, in_map_iff. split; intros [X|X]; auto.
    - destruct X as (u & E & Hu). injection E as <- <-. auto.
    - left. destruct X as [-> X]. eauto. }
  assert (Y : forall t, In t l -> next s <= t < next s') by (intros t Ht; rewrite Sq, in_seq in Ht; lia).
  constructor.
  - intros q x t Hq. apply X. destruct (R _ _ _ Hq); auto. right. eapply (h_rem Hs); eauto.
  - intros x k t Hk Hi. apply X. destruct (W _ _ _ Hk Hi); auto.
  - intros x p t q Hp Hi. apply X. right. eauto.
  - intros a t q Ha. rewrite X. rewrite L, in_app_iff, in_map_iff in Ha. destruct Ha as [(u & E & _)|Ha]; [discriminate|].
    destruct (h_exec Hs _ _ _ Ha). auto.
  - intros t x Ht. apply X in Ht. destruct Ht as [[_ Ht]|Ht]; [apply Y in Ht; lia|]. apply (h_fresh Hs) in Ht. lia.
  - intros t x y Hx Hy. apply X in Hx. apply X in Hy.
    destruct Hx as [[-> Hx]|Hx], Hy as [[-> Hy]|Hy]; auto.
    + apply Y in Hx. apply (h_fresh Hs) in Hy. lia.
    + apply Y in Hy. apply (h_fresh Hs) in Hx. lia.
    + eapply (h_once Hs); eauto.
Qed.
Lemma homes_step c s s' : inv s -> homes s -> step c s = Some s' -> homes s'.
Proof.
  intros I Hs H.
  assert (W0 : forall v k t, nth_error (ws s) v = Some k -> In t (loc k) \/ In t (pend k) -> In (ESubmit t v) (log s)) by apply Hs.
  assert (Wu : forall w k k', nth_error (ws s) w = Some k ->
    (forall t, In t (loc k') \/ In t (pend k') -> In (ESubmit t w) (log s)) ->
    forall v c t, nth_error (upd (ws s) w k') v = Some c -> In t (loc c) \/ In t (pend c) -> In (ESubmit t v) (log s)).
  { intros w k k' Ek X v c0 t Hv. rewrite (nth_upd _ _ _ _ Ek) in Hv. destruct (Nat.eqb_spec w v) as [<-|]; [injection Hv as <-|]; eauto. }
  destruct c; simpl in H.
  - destruct (nth_error (notes s) a) as [v|]; [|discriminate]. destruct (cur v) as [[w []]|]; [| | |discriminate].
    + destruct (nth_error (ws s) w) as [k|] eqn:Ek; [|discriminate]. injection H as <-.
      eapply homes_mono; eauto; [|apply Hs]. simpl. eapply Wu; [exact Ek|]. simpl. eauto.
    + destruct (locked s w); [discriminate|]. injection H as <-. destruct Hs. constructor; auto.
    + injection H as <-. destruct (nth_error (pcs s) w) as [[]|] eqn:Ep; try (destruct Hs; constructor; auto; fail).
      eapply homes_pc with (p' := Unsleep); eauto. simpl. tauto.
  - destruct (main s w) as [p|] eqn:M; try discriminate. destruct (nth_error (ws s) w) as [k|] eqn:Ek; [|destruct p; discriminate].
    destruct (main_spec _ _ M) as (Ep & _).
    assert (L : forall t r, rev (loc k) = t :: r -> In (ESubmit t w) (log s) /\ forall o u, In u (loc (w_loc k (rev r) o)) \/ In u (pend (w_loc k (rev r) o)) -> In (ESubmit u w) (log s)).
    { intros t r E. assert (E' : loc k = rev r ++ [t]) by (rewrite <- (rev_involutive (loc k)), E; auto).
      split; [|intros o0 u; simpl; intros [X|X]]; eapply W0; try exact Ek; auto; left; rewrite E', in_app_iff; simpl; auto. }
    destruct p; try discriminate.
    + destruct (rev (loc k)) as [|u r] eqn:R; [|destruct (o <=? length r); [|discriminate]]; injection H as <-.
      * eapply homes_pc; [exact Hs|exact Ep|reflexivity|reflexivity|reflexivity|reflexivity|exact W0|simpl; tauto].
      * destruct (L _ _ eq_refl) as [L1 L2].
        eapply homes_pc; [exact Hs|exact Ep|reflexivity|reflexivity|reflexivity|reflexivity|simpl; eapply Wu; eauto|].
        simpl. intros t q [E|[]]. injection E as <- <-. auto.
    + destruct (rev (loc k)) as [|u r] eqn:R; [|destruct (o <=? length r); [|discriminate]]; injection H as <-.
      * eapply homes_pc; [exact Hs|exact Ep|reflexivity|reflexivity|reflexivity|reflexivity|exact W0|destruct b; simpl; tauto].
      * destruct (L _ _ eq_refl) as [L1 L2].
        eapply homes_pc; [exact Hs|exact Ep|reflexivity|reflexivity|reflexivity|reflexivity|simpl; eapply Wu; eauto|].
        destruct b; simpl; intros t q [E|[]]; injection E as <- <-; auto.
  - destruct (main s w) as [p|] eqn:M; try discriminate. destruct p; try discriminate. destruct (main_spec _ _ M) as (Ep & _).
    assert (A : forall t, In t acc -> In (ESubmit t w) (log s)).
    { intros t Ht. eapply (h_pc Hs); [exact Ep|]. simpl. apply in_map_iff. eauto. }
    destruct qs as [|q qs].
    + destruct (nth_error (ws s) w) as [k|] eqn:Ek; [|discriminate]. injection H as <-.
      eapply homes_pc; [exact Hs|exact Ep|reflexivity|reflexivity|reflexivity|reflexivity| |].
      * simpl. eapply Wu; eauto. simpl. intros t. rewrite in_app_iff. intros [X|[X|X]]; eauto.
      * destruct (pend k ++ acc), b; simpl; tauto.
    + injection H as <-. eapply homes_mono; eauto; simpl.
      * intros q0 w0 t Hq. apply filter_In in Hq. tauto.
      * intros x p t q0 Hx Hi. rewrite (nth_upd _ _ _ _ Ep) in Hx. destruct (Nat.eqb_spec w x) as [<-|]; [|eapply (h_pc Hs); eauto].
        injection Hx as <-. simpl in Hi. apply in_map_iff in Hi. destruct Hi as (u & E & Hu). injection E as <- <-.
        apply in_app_iff in Hu. destruct Hu as [|Hu]; auto. apply in_rev in Hu. unfold queue in Hu. apply in_map_iff in Hu.
        destruct Hu as ([[q1 w1] u1] & E & Hu). apply filter_In in Hu. destruct Hu as [Hu Hq]. unfold in_queue in Hq. simpl in *.
        apply andb_true_iff in Hq. rewrite !Nat.eqb_eq in Hq. destruct Hq. subst. eapply (h_rem Hs); eauto.
  - destruct (main s w) as [p|] eqn:M; try discriminate. destruct p; try discriminate. destruct (main_spec _ _ M) as (Ep & _).
    destruct (nth_error (ws s) w) as [x|] eqn:Ek; [|discriminate].
    destruct ((1 <=? o) && (o <=? length (loc x ++ firstn k (pend x)))); [|discriminate]. injection H as <-.
    eapply homes_pc; [exact Hs|exact Ep|reflexivity|reflexivity|reflexivity|reflexivity| |simpl; tauto].
    simpl. eapply Wu; eauto. simpl. intros t. rewrite in_app_iff.
    assert (F : In t (firstn k (pend x)) \/ In t (skipn k (pend x)) -> In t (pend x)) by (rewrite <- in_app_iff, firstn_skipn; auto).
    intros X. eapply W0; try exact Ek. tauto.
  - destruct (main s w) as [p|] eqn:M; try discriminate. destruct p; try discriminate. destruct (main_spec _ _ M) as (Ep & _).
    injection H as <-. eapply homes_pc; [exact Hs|exact Ep|reflexivity|reflexivity|reflexivity|reflexivity|exact W0|simpl; tauto].
  - destruct (main s w) as [p|] eqn:M; try discriminate. destruct p; try discriminate. destruct (main_spec _ _ M) as (Ep & _).
    destruct (nth_error (ws s) v) as [k|] eqn:Ek; [|discriminate]. destruct ((own k <? length (loc k)) && negb (v =? w)); [|discriminate].
    destruct (loc k) as [|u r] eqn:El; [discriminate|]. injection H as <-.
    eapply homes_pc; [exact Hs|exact Ep|reflexivity|reflexivity|reflexivity|reflexivity| |].
    + simpl. eapply Wu; eauto. simpl. intros t X. eapply W0; try exact Ek. rewrite El. simpl. tauto.
    + simpl. intros t q [E|[]]. injection E as <- <-. eapply W0; try exact Ek. rewrite El. simpl. auto.
  - destruct (main s w) as [p|] eqn:M; try discriminate. destruct p; try discriminate. destruct (main_spec _ _ M) as (Ep & _).
    injection H as <-. eapply homes_pc; [exact Hs|exact Ep|reflexivity|reflexivity|reflexivity|reflexivity|exact W0|simpl; tauto].
  - destruct (main s w) as [p|] eqn:M; try discriminate. destruct p; try discriminate. destruct (main_spec _ _ M) as (Ep & _).
    injection H as <-. pose proof (fun t q => h_pc Hs _ t q Ep) as A. simpl in A.
    destruct ((thieves s =? 1) && negb (active s =? 0));
    (eapply homes_pc; [exact Hs|exact Ep|reflexivity|reflexivity|reflexivity|reflexivity|exact W0|]);
    destruct r as [[t q]|]; simpl in *; try tauto; intros t' q' [E|[]]; injection E as <- <-; apply A; auto.
  - destruct (main s w) as [p|] eqn:M; try discriminate. destruct (nth_error (ws s) w) as [k|] eqn:Ek; [|destruct p; discriminate].
    destruct (main_spec _ _ M) as (Ep & _). destruct p; try discriminate. injection H as <-.
    eapply homes_pc; [exact Hs|exact Ep|reflexivity|reflexivity|reflexivity|reflexivity|exact W0|]. destruct (stop k); simpl; tauto.
  - destruct (main s w) as [p|] eqn:M; try discriminate. destruct (nth_error (ws s) w) as [k|] eqn:Ek; [|destruct p; discriminate].
    destruct (main_spec _ _ M) as (Ep & _). destruct p; try discriminate.
    assert (X : homes (s_pc s w Exch)) by (eapply homes_pc; [exact Hs|exact Ep|reflexivity|reflexivity|reflexivity|reflexivity|exact W0|simpl; tauto]).
    destruct (st k), spurious; injection H as <-; auto.
    eapply homes_pc; [exact Hs|exact Ep|reflexivity|reflexivity|reflexivity|reflexivity| |simpl; tauto]. simpl. eapply Wu; [exact Ek|]. simpl. eauto.
  - destruct (main s w) as [p|] eqn:M; try discriminate. destruct (nth_error (ws s) w) as [k|] eqn:Ek; [|destruct p; discriminate].
    destruct (main_spec _ _ M) as (Ep & _). destruct p; try discriminate. injection H as <-. pose proof (fun t q => h_pc Hs _ t q Ep) as A. simpl in A.
    destruct (st k); (eapply homes_pc; [exact Hs|exact Ep|reflexivity|reflexivity|reflexivity|reflexivity| |exact A]); auto.
    simpl. eapply Wu; [exact Ek|]. simpl. eauto.
  - destruct (main s w) as [p|] eqn:M; try discriminate. destruct p; try discriminate. destruct (main_spec _ _ M) as (Ep & _).
    injection H as <-. eapply homes_pc; [exact Hs|exact Ep|reflexivity|reflexivity|reflexivity|reflexivity|exact W0|simpl; tauto].
  - destruct (main s w) as [p|] eqn:M; try discriminate. destruct p; try discriminate. destruct (main_spec _ _ M) as (Ep & _).
    injection H as <-. eapply homes_pc; [exact Hs|exact Ep|reflexivity|reflexivity|reflexivity|reflexivity|exact W0|simpl; tauto].
  - destruct (main s w) as [p|] eqn:M; try discriminate. destruct p; try discriminate. destruct (main_spec _ _ M) as (Ep & _).
    injection H as <-. eapply homes_pc; [exact Hs|exact Ep|reflexivity|reflexivity|reflexivity|reflexivity|exact W0|simpl; tauto].
  - destruct (main s w) as [p|] eqn:M; try discriminate. destruct p; try discriminate. destruct (main_spec _ _ M) as (Ep & _).
    injection H as <-. destruct ((active s =? 0) && (thieves s =? 0));
    (eapply homes_pc; [exact Hs|exact Ep|reflexivity|reflexivity|reflexivity|reflexivity|exact W0|simpl; tauto]).
  - destruct (main s w) as [p|] eqn:M; try discriminate. destruct (nth_error (ws s) w) as [k|] eqn:Ek; [|destruct p; discriminate].
    destruct (main_spec _ _ M) as (Ep & _). destruct p; try discriminate. injection H as <-.
    eapply homes_pc; [exact Hs|exact Ep|reflexivity|reflexivity|reflexivity|reflexivity| |simpl; tauto]. simpl. eapply Wu; [exact Ek|]. simpl. eauto.
  - destruct (main s w) as [p|] eqn:M; try discriminate. destruct p; try discriminate. destruct (main_spec _ _ M) as (Ep & _).
    injection H as <-. pose proof (fun t q => h_pc Hs _ t q Ep) as A. simpl in A.
    assert (Hw : w < n) by (destruct (wk_of _ I Ep) as (k & Ek); [discriminate|]; rewrite <- (i_len I); apply nth_error_Some; congruence).
    assert (X : homes (s_pc s w Exec)) by (eapply homes_pc; [exact Hs|exact Ep|reflexivity|reflexivity|reflexivity|reflexivity|exact W0|simpl; tauto]).
    destruct X. constructor; simpl in *; rewrite ?Nat.add_0_r; eauto.
    + intros a t' q' [E|E]; [injection E as <- <- <-; split; auto|]. apply h_exec0 in E. split; tauto.
    + intros t' w' [E|E]; [discriminate|eauto].
    + intros t' w1 w2 [E|E] [F|F]; try discriminate. eauto.
  - destruct (main s w) as [p|] eqn:M; try discriminate. destruct p; try discriminate. destruct (main_spec _ _ M) as (Ep & _).
    injection H as <-. eapply homes_pc; [exact Hs|exact Ep|reflexivity|reflexivity|reflexivity|reflexivity|exact W0|simpl; tauto].
  - destruct (main s w) as [p|] eqn:M; try discriminate. destruct (nth_error (ws s) w) as [k|] eqn:Ek; [|destruct p; discriminate].
    destruct (main_spec _ _ M) as (Ep & _). destruct p; try discriminate.
    destruct full; [|destruct (o <=? length (loc k ++ [next s])); [|discriminate]]; injection H as <-;
    (eapply homes_sub with (l := [next s]) (w := w); [exact Hs|reflexivity|reflexivity|reflexivity|simpl; auto| |apply Hs]);
    simpl; intros v c t Hv Hi; rewrite (nth_upd _ _ _ _ Ek) in Hv; (destruct (Nat.eqb_spec w v) as [<-|]; [injection Hv as <-|left; eapply W0; eauto]);
    simpl in Hi; rewrite in_app_iff in Hi; simpl in Hi.
    + destruct Hi as [Hi|[Hi|[<-|[]]]]; [left; eapply W0; eauto|left; eapply W0; eauto|right; auto].
    + destruct Hi as [[Hi|[<-|[]]]|Hi]; [left; eapply W0; eauto|right; auto|left; eapply W0; eauto].
  - destruct (main s w) as [p|] eqn:M; try discriminate. destruct (nth_error (ws s) w) as [x|] eqn:Ek; [|destruct p; discriminate].
    destruct (main_spec _ _ M) as (Ep & _). destruct p; try discriminate. injection H as <-.
    eapply homes_sub with (l := seq (next s) k) (w := w); [exact Hs|reflexivity|rewrite seq_length; auto|simpl; rewrite seq_length; auto|simpl; auto| |apply Hs].
    simpl; intros v c t Hv Hi; rewrite (nth_upd _ _ _ _ Ek) in Hv. destruct (Nat.eqb_spec w v) as [<-|]; [injection Hv as <-|left; eapply W0; eauto].
    simpl in Hi. rewrite in_app_iff in Hi. destruct Hi as [Hi|[Hi|Hi]]; [left; eapply W0; eauto|right; auto|left; eapply W0; eauto].
  - destruct (main s a) as [p|] eqn:M; try discriminate. destruct (client p && (q <? nq s) && (w <? n)); [|discriminate]. injection H as <-.
    destruct (queue s q w);
    (eapply homes_sub with (l := [next s]) (w := w); [exact Hs|reflexivity|reflexivity|reflexivity| |simpl; eauto|apply Hs]);
    simpl; intros q' w' u [E|E]; auto; injection E as <- <- <-; auto.
  - destruct (main s a) as [p|] eqn:M; try discriminate. destruct (client p && (q <? nq s) && (w <? n)); [|discriminate]. injection H as <-.
    eapply homes_sub with (l := seq (next s) k) (w := w); [exact Hs|reflexivity|rewrite seq_length; auto|simpl; rewrite seq_length; auto| |simpl; eauto|apply Hs].
    simpl. intros q' w' t E. apply in_app_iff in E. destruct E as [E|E]; auto. apply in_map_iff in E. destruct E as (u & E & Hu).
    injection E as <- <- <-. auto.
  - destruct (main s a) as [p|] eqn:M; try discriminate. destruct (client p); [|discriminate]. injection H as <-. destruct Hs; constructor; auto.
  - destruct (main s a) as [p|] eqn:M; try discriminate. destruct (nth_error (ws s) w) as [k|] eqn:Ek; [|discriminate].
    destruct (locked s w || negb (client p)); [discriminate|]. injection H as <-.
    eapply homes_mono; eauto; [|apply Hs]. simpl. eapply Wu; [exact Ek|]. simpl. eauto.
Qed.
Theorem homes_reach s : reachable s -> homes s.
Proof.
  induction 1; [|eapply homes_step; eauto; apply inv_reach; auto].
  constructor; simpl; try tauto.
  - intros w k t Hk. apply nth_repeat_some in Hk. subst. simpl. tauto.
  - intros w p t q Hp. assert (p = PopLocal \/ p = Ext).
    { destruct (Nat.lt_ge_cases w n).
      - rewrite nth_error_app1 in Hp by (rewrite repeat_length; auto). apply nth_repeat_some in Hp. auto.
      - rewrite nth_error_app2 in Hp by (rewrite repeat_length; auto). apply nth_repeat_some in Hp. auto. }
    destruct H; subst; simpl; tauto.
Qed.

(** ** num_active_ *)
Definition is_active (p : pc) : bool := match p with Ext | Stealing | Clear _ | PreWait | Waiting | Unsleep => false | _ => true end.
Definition is_thief (p : pc) : bool := match p with Stealing | Clear _ => true | _ => false end.
Definition nums (s : state) : Prop := active s = cnt is_active (pcs s) /\ thieves s = cnt is_thief (pcs s).

Lemma cnt_upd {A} (f : A -> bool) (l : list A) w p p' : nth_error l w = Some p ->
  cnt f (upd l w p') + (if f p then 1 else 0) = cnt f l + (if f p' then 1 else 0).
Proof. revert w. induction l; destruct w; simpl; intros H; try discriminate; [injection H as ->; lia|]. specialize (IHl _ H). lia. Qed.
Ltac nu := match goal with
  | E : nth_error (pcs ?s) ?w = Some ?p |- context [upd (pcs ?s) ?w ?p'] =>
      pose proof (@cnt_upd _ is_active _ _ _ p' E); pose proof (@cnt_upd _ is_thief _ _ _ p' E); simpl in *; split; lia
  end.
Lemma nums_step c s s' : nums s -> step c s = Some s' -> nums s'.
Proof.
  intros C H. unfold nums in *. destruct C as [C1 C2]. destruct c; simpl in H.
  - destruct (nth_error (notes s) a) as [v|]; [|discriminate]. destruct (cur v) as [[w []]|]; [| | |discriminate].
    + destruct (nth_error (ws s) w) as [k|] eqn:Ek; [|discriminate]. injection H as <-. auto.
    + destruct (locked s w); [discriminate|]. injection H as <-. auto.
    + injection H as <-. destruct (nth_error (pcs s) w) as [[]|] eqn:Ep; simpl; try (split; assumption). nu.
  - destruct (main s w) as [p|] eqn:M; try discriminate. destruct (nth_error (ws s) w) as [k|] eqn:Ek; [|destruct p; discriminate].
    destruct (main_spec _ _ M) as (Ep & _). destruct p; try discriminate;
    (destruct (rev (loc k)) as [|u r] eqn:R; [|destruct (o <=? length r); [|discriminate]]); injection H as <-; try destruct b; simpl; nu.
  - destruct (main s w) as [p|] eqn:M; try discriminate. destruct p; try discriminate. destruct (main_spec _ _ M) as (Ep & _).
    destruct qs as [|q qs]; [destruct (nth_error (ws s) w) as [k|] eqn:Ek; [|discriminate]|]; injection H as <-; simpl; [destruct (pend k ++ acc), b|]; nu.
  - destruct (main s w) as [p|] eqn:M; try discriminate. destruct p; try discriminate. destruct (main_spec _ _ M) as (Ep & _).
    destruct (nth_error (ws s) w) as [x|] eqn:Ek; [|discriminate].
    destruct ((1 <=? o) && (o <=? length (loc x ++ firstn k (pend x)))); [|discriminate]. injection H as <-. simpl. nu.
  - destruct (main s w) as [p|] eqn:M; try discriminate. destruct p; try discriminate. destruct (main_spec _ _ M) as (Ep & _).
    injection H as <-. simpl. nu.
  - destruct (main s w) as [p|] eqn:M; try discriminate. destruct p; try discriminate. destruct (main_spec _ _ M) as (Ep & _).
    destruct (nth_error (ws s) v) as [k|] eqn:Ek; [|discriminate]. destruct ((own k <? length (loc k)) && negb (v =? w)); [|discriminate].
    destruct (loc k) as [|u r] eqn:El; [discriminate|]. injection H as <-. simpl. nu.
  - destruct (main s w) as [p|] eqn:M; try discriminate. destruct p; try discriminate. destruct (main_spec _ _ M) as (Ep & _).
    injection H as <-. simpl. nu.
  - destruct (main s w) as [p|] eqn:M; try discriminate. destruct p; try discriminate. destruct (main_spec _ _ M) as (Ep & _).
    injection H as <-. destruct ((thieves s =? 1) && negb (active s =? 0)), r as [[? ?]|]; simpl; nu.
  - destruct (main s w) as [p|] eqn:M; try discriminate. destruct (nth_error (ws s) w) as [k|] eqn:Ek; [|destruct p; discriminate].
    destruct (main_spec _ _ M) as (Ep & _). destruct p; try discriminate. injection H as <-. destruct (stop k); simpl; nu.
  - destruct (main s w) as [p|] eqn:M; try discriminate. destruct (nth_error (ws s) w) as [k|] eqn:Ek; [|destruct p; discriminate].
    destruct (main_spec _ _ M) as (Ep & _). destruct p; try discriminate. destruct (st k), spurious; injection H as <-; simpl; nu.
  - destruct (main s w) as [p|] eqn:M; try discriminate. destruct (nth_error (ws s) w) as [k|] eqn:Ek; [|destruct p; discriminate].
    destruct (main_spec _ _ M) as (Ep & _). destruct p; try discriminate. injection H as <-. destruct (st k); simpl; nu.
  - destruct (main s w) as [p|] eqn:M; try discriminate. destruct p; try discriminate. destruct (main_spec _ _ M) as (Ep & _).
    injection H as <-. simpl. nu.
  - destruct (main s w) as [p|] eqn:M; try discriminate. destruct p; try discriminate. destruct (main_spec _ _ M) as (Ep & _).
    injection H as <-. simpl. nu.
  - destruct (main s w) as [p|] eqn:M; try discriminate. destruct p; try discriminate. destruct (main_spec _ _ M) as (Ep & _).
    injection H as <-. simpl. nu.
  - destruct (main s w) as [p|] eqn:M; try discriminate. destruct p; try discriminate. destruct (main_spec _ _ M) as (Ep & _).
    injection H as <-. destruct ((active s =? 0) && (thieves s =? 0)); simpl; nu.
  - destruct (main s w) as [p|] eqn:M; try discriminate. destruct (nth_error (ws s) w) as [k|] eqn:Ek; [|destruct p; discriminate].
    destruct (main_spec _ _ M) as (Ep & _). destruct p; try discriminate. injection H as <-. simpl. nu.
  - destruct (main s w) as [p|] eqn:M; try discriminate. destruct p; try discriminate. destruct (main_spec _ _ M) as (Ep & _).
    injection H as <-. simpl. nu.
  - destruct (main s w) as [p|] eqn:M; try discriminate. destruct p; try discriminate. destruct (main_spec _ _ M) as (Ep & _).
    injection H as <-. simpl. nu.
  - destruct (main s w) as [p|] eqn:M; try discriminate. destruct (nth_error (ws s) w) as [k|] eqn:Ek; [|destruct p; discriminate].
    destruct p; try discriminate.
    destruct full; [|destruct (o <=? length (loc k ++ [next s])); [|discriminate]]; injection H as <-; auto.
  - destruct (main s w) as [p|] eqn:M; try discriminate. destruct (nth_error (ws s) w) as [x|] eqn:Ek; [|destruct p; discriminate].
    destruct p; try discriminate. injection H as <-. auto.
  - destruct (main s a) as [p|] eqn:M; try discriminate. destruct (client p && (q <? nq s) && (w <? n)); [|discriminate]. injection H as <-.
    destruct (queue s q w); auto.
  - destruct (main s a) as [p|] eqn:M; try discriminate. destruct (client p && (q <? nq s) && (w <? n)); [|discriminate]. injection H as <-. auto.
  - destruct (main s a) as [p|] eqn:M; try discriminate. destruct (client p); [|discriminate]. injection H as <-. auto.
  - destruct (main s a) as [p|] eqn:M; try discriminate. destruct (nth_error (ws s) w) as [k|] eqn:Ek; [|discriminate].
    destruct (locked s w || negb (client p)); [discriminate|]. injection H as <-. auto.
Qed.

(** ** C38 *)
(** A worker waiting on its condition variable with work in any of its queues is about to be woken:
    some thread is inside notify() or request_stop() for it. *)
Theorem C38_asleep_means_no_work s w : reachable s -> asleep s w -> no_wakeup s w -> no_work s w.
Proof.
  intros R A N. pose proof (inv_reach R) as I. destruct (wk_of _ I A) as (k & Ek); [discriminate|].
  pose proof (i_w I _ A Ek) as O. split.
  - intros q. destruct (queue s q w) as [|t l] eqn:Eq; auto. exfalso.
    assert (X : In t (queue s q w)) by (rewrite Eq; left; auto). unfold queue in X. apply in_map_iff in X.
    destruct X as ([[q1 w1] u] & Eu & X). apply filter_In in X. destruct X as [X Y]. unfold in_queue in Y. simpl in *.
    apply andb_true_iff in Y. rewrite !Nat.eqb_eq in Y. destruct Y. subst.
    destruct (o_rem O q t Logic.I X) as [E|E]; [|eapply N; eauto]. destruct (o_not O eq_refl E) as [Z|[_ Z]]; eapply N; eauto.
  - intros k' E. rewrite Ek in E. injection E as <-. apply (o_loc O).
Qed.
(** ... and the same holds for a stop request. *)
Theorem C38_asleep_means_not_stopped s w k : reachable s -> asleep s w -> nth_error (ws s) w = Some k -> no_wakeup s w -> stop k = false.
Proof.
  intros R A Ek N. pose proof (inv_reach R) as I. destruct (stop k) eqn:E; auto. exfalso.
  eapply N. apply (o_stop' (i_w I _ A Ek) eq_refl E).
Qed.

(** The wake-up is delivered by that thread's own next steps, whatever the others do not do. *)
Fixpoint runs (cs : list action) (s : state) : option state :=
  match cs with [] => Some s | c :: r => match step c s with Some s' => runs r s' | None => None end end.
Lemma wake_N2 s w a v : inv s -> asleep s w -> nth_error (notes s) a = Some v -> cur v = Some (w, N2) ->
  exists s', step (ANotify a) s = Some s' /\ ~ asleep s' w.
Proof.
  intros I A Ev Cv. eexists. split; [simpl; rewrite Ev, Cv, A; reflexivity|]. unfold asleep. simpl.
  rewrite (nth_upd _ _ _ _ A), Nat.eqb_refl. discriminate.
Qed.
Lemma wake_N1 s w a v : inv s -> asleep s w -> nth_error (notes s) a = Some v -> cur v = Some (w, N1) ->
  exists s', runs [ANotify a; ANotify a] s = Some s' /\ ~ asleep s' w.
Proof.
  intros I A Ev Cv. cbn [runs].
  assert (E : step (ANotify a) s = Some (s_note s a {| cur := Some (w, N2); more := [] |})).
  { simpl. rewrite Ev, Cv. unfold locked. rewrite A. reflexivity. }
  rewrite E. pose proof (inv_step _ I E) as J.
  destruct (@wake_N2 (s_note s a {| cur := Some (w, N2); more := [] |}) w a {| cur := Some (w, N2); more := [] |}) as (s' & E' & N); auto.
  { simpl. rewrite (nth_upd _ _ _ _ Ev), Nat.eqb_refl. auto. }
  exists s'. rewrite E'. auto.
Qed.
Theorem C38_wakeup_delivered s w : reachable s -> asleep s w -> ~ no_work s w ->
  exists a m s', m <= 3 /\ runs (repeat (ANotify a) m) s = Some s' /\ ~ asleep s' w.
Proof.
  intros R A N. pose proof (inv_reach R) as I. destruct (wk_of _ I A) as (k & Ek); [discriminate|].
  pose proof (i_w I _ A Ek) as O.
  assert (X : exists ph, has s w ph).
  { destruct (o_loc O) as [L P].
    assert (Q : exists q t, In (q, w, t) (rem s)).
    { destruct (existsb (fun e => snd (fst e) =? w) (rem s)) eqn:B.
      - apply existsb_exists in B. destruct B as ([[q x] t] & B1 & B2). simpl in B2. apply Nat.eqb_eq in B2. subst. eauto.
      - exfalso. apply N. split; [|intros k' E; rewrite Ek in E; injection E as <-; auto].
        intros q. unfold queue. destruct (filter (in_queue q w) (rem s)) as [|e l] eqn:F; auto. exfalso.
        assert (Y : In e (filter (in_queue q w) (rem s))) by (rewrite F; left; auto). apply filter_In in Y. destruct Y as [Y1 Y2].
        unfold in_queue in Y2. apply andb_true_iff in Y2.
        assert (existsb (fun e => snd (fst e) =? w) (rem s) = true) by (apply existsb_exists; exists e; tauto). congruence. }
    destruct Q as (q & t & Q). destruct (o_rem O q t Logic.I Q) as [E|E]; [|eauto].
    destruct (o_not O eq_refl E) as [Z|[_ Z]]; eauto. }
  destruct X as (ph & a & v & Ev & Cv). destruct ph.
  - destruct (st k) eqn:Es; [exfalso; apply (o_st O eq_refl Es)| |].
    + set (s1 := s_note (s_wk s w (w_st k Notified)) a {| cur := Some (w, N1); more := [] |}).
      assert (E : step (ANotify a) s = Some s1) by (simpl; rewrite Ev, Cv, Ek, Es; reflexivity).
      pose proof (inv_step _ I E) as J.
      destruct (@wake_N1 s1 w a {| cur := Some (w, N1); more := [] |}) as (s' & E' & N'); auto.
      { simpl. rewrite (nth_upd _ _ _ _ Ev), Nat.eqb_refl. auto. }
      exists a, 3, s'. split; auto. split; auto. cbn [runs repeat] in *. rewrite E. exact E'.
    + destruct (o_not O eq_refl Es) as [(b & u & Hb & Hu)|[_ (b & u & Hb & Hu)]].
      * destruct (@wake_N1 _ _ _ _ I A Hb Hu) as (s' & E' & N'). exists b, 2, s'. auto.
      * destruct (@wake_N2 _ _ _ _ I A Hb Hu) as (s' & E' & N'). exists b, 1, s'. cbn [runs repeat]. rewrite E'. auto.
  - destruct (@wake_N1 _ _ _ _ I A Ev Cv) as (s' & E' & N'). exists a, 2, s'. auto.
  - destruct (@wake_N2 _ _ _ _ I A Ev Cv) as (s' & E' & N'). exists a, 1, s'. cbn [runs repeat]. rewrite E'. auto.
Qed.

Lemma tot_ge s t : (0 <= ct t (map snd (rem s)))%Z /\ (0 <= sumz (wkc t) (ws s))%Z /\ (0 <= sumz (pcc t) (pcs s))%Z.
Proof.
  split; [|split]; [unfold ct; lia| |]; apply sumz_nonneg; intros; unfold wkc, pcc, ct; lia.
Qed.
(** No task is executed twice, and only submitted tasks are executed. *)
Theorem C38_at_most_once s t : reachable s -> executions t (log s) <= 1.
Proof.
  intros R. pose proof (cons_reach R t) as C. unfold tot in C. destruct (tot_ge s t) as (A & B & D).
  assert (one t (next s) <= 1)%Z by (unfold one; destruct (t <? next s); lia). lia.
Qed.
(** The queue index passed to a task is the worker it was submitted to; it is executed by a worker. *)
Theorem C38_queue_index s a t q : reachable s -> In (EExec a t q) (log s) ->
  In (ESubmit t q) (log s) /\ (forall w, In (ESubmit t w) (log s) -> w = q) /\ a < n.
Proof.
  intros R H. pose proof (homes_reach R) as Hs. destruct (h_exec Hs _ _ _ H). split; [|split]; auto.
  intros w Hw. eapply (h_once Hs); eauto.
Qed.
(** When every worker is asleep and nobody is notifying, every submitted task has been executed. *)
Theorem C38_quiescent s : reachable s ->
  (forall w, w < n -> asleep s w) -> (forall w, no_wakeup s w) ->
  forall t w, In (ESubmit t w) (log s) -> executions t (log s) = 1.
Proof.
  intros R A N t w H. pose proof (inv_reach R) as I. pose proof (homes_reach R) as Hs.
  pose proof (cons_reach R t) as C. unfold tot in C.
  assert (Er : rem s = []).
  { destruct (rem s) as [|[[q x] u] l] eqn:E; auto. exfalso.
    assert (X : In (q, x, u) (rem s)) by (rewrite E; left; auto). destruct (i_nq I _ _ _ X) as [_ L].
    destruct (C38_asleep_means_no_work R (A _ L) (N x)) as [Q _]. specialize (Q q). unfold queue in Q.
    rewrite E in Q. simpl in Q. unfold in_queue at 1 in Q. simpl in Q. rewrite !Nat.eqb_refl in Q. discriminate. }
  assert (Ew : sumz (wkc t) (ws s) = 0%Z).
  { apply sumz_zero. intros k Hk. apply In_nth_error in Hk. destruct Hk as (x & Hk).
    assert (L : x < n) by (rewrite <- (i_len I); apply nth_error_Some; congruence).
    destruct (C38_asleep_means_no_work R (A _ L) (N x)) as [_ Q]. destruct (Q _ Hk) as [Q1 Q2]. unfold wkc. rewrite Q1, Q2. reflexivity. }
  assert (Ep : sumz (pcc t) (pcs s) = 0%Z).
  { apply sumz_zero. intros p Hp. apply In_nth_error in Hp. destruct Hp as (x & Hp).
    destruct (Nat.lt_ge_cases x n) as [L|L]; [rewrite (A _ L) in Hp; injection Hp as <-; reflexivity|].
    apply (i_ext I _ Hp) in L. subst. reflexivity. }
  rewrite Er, Ew, Ep in C. unfold one in C. pose proof (h_fresh Hs _ _ H). destruct (Nat.ltb_spec t (next s)); [|lia].
  unfold ct in C. simpl in C. lia.
Qed.
(** No task is lost: one that has not been executed is in a queue or in the hands of a worker. *)
Theorem C38_not_lost s t w : reachable s -> In (ESubmit t w) (log s) -> executions t (log s) = 0 ->
  (exists q, In t (queue s q w)) \/ (exists k, nth_error (ws s) w = Some k /\ (In t (loc k) \/ In t (pend k))) \/
  (exists a p, nth_error (pcs s) a = Some p /\ In t (held p)).
Proof.
  intros R H E. pose proof (homes_reach R) as Hs. pose proof (cons_reach R t) as C. unfold tot in C.
  pose proof (h_fresh Hs _ _ H). unfold one in C. destruct (Nat.ltb_spec t (next s)); [|lia]. rewrite E in C.
  destruct (tot_ge s t) as (X & Y & Z).
  assert (CI : forall l, (0 < ct t l)%Z -> In t l).
  { intros l L. unfold ct in L. assert (L' : 0 < cnt (fun u => u =? t) l) by lia. apply cnt_pos in L'. destruct L' as (u & Hu & B).
    apply Nat.eqb_eq in B. subst. auto. }
  assert (D : (0 < ct t (map snd (rem s)) \/ 0 < sumz (wkc t) (ws s) \/ 0 < sumz (pcc t) (pcs s))%Z) by lia.
  destruct D as [D|[D|D]].
  - left. apply CI, in_map_iff in D. destruct D as ([[q x] u] & Eu & D). simpl in Eu. subst u.
    assert (x = w) by (eapply (h_once Hs); [eapply (h_rem Hs); eauto|auto]). subst x.
    exists q. unfold queue. apply in_map_iff. exists (q, w, t). split; auto. apply filter_In. split; auto. unfold in_queue. simpl.
    rewrite !Nat.eqb_refl. auto.
  - right. left. apply sumz_pos_ex in D. destruct D as (x & k & Hk & D). unfold wkc in D.
    assert (D' : In t (loc k) \/ In t (pend k)).
    { destruct (Z.ltb_spec 0 (ct t (loc k))); [left; auto|right; apply CI; lia]. }
    assert (x = w) by (eapply (h_once Hs); [eapply (h_loc Hs); eauto|auto]). subst x. eauto.
  - right. right. apply sumz_pos_ex in D. destruct D as (x & p & Hp & D). exists x, p. split; auto.
Qed.
(** A worker exits only after a stop request. *)
Theorem C38_exit_only_after_stop s w k : reachable s -> nth_error (pcs s) w = Some Exit -> nth_error (ws s) w = Some k -> stop k = true.
Proof. intros R Hp Hk. apply (o_exit (i_w (inv_reach R) _ Hp Hk) eq_refl). Qed.

(** num_active_ counts the workers that are neither sleeping nor stealing, and the thieves; the two
    halves never exceed the number of workers, so the packed word does not overflow if n < 65536. *)
Theorem C38_active_count s : reachable s ->
  active s = cnt is_active (pcs s) /\ thieves s = cnt is_thief (pcs s) /\ active s + thieves s <= n.
Proof.
  intros R. assert (N : nums s).
  { clear - R. induction R; [|eapply nums_step; eauto]. unfold nums. simpl. rewrite !cnt_app.
    assert (X : forall f (x : pc) k, cnt f (repeat x k) = if f x then k else 0)
      by (intros f x k; induction k; simpl; [destruct (f x); auto|rewrite IHk; destruct (f x); auto]).
    rewrite !X. simpl. lia. }
  destruct N as [N1 N2]. split; [|split]; auto. rewrite N1, N2. pose proof (inv_reach R) as I.
  assert (G : forall l k, (forall i p, nth_error l i = Some p -> (p = Ext <-> k <= i)) -> cnt is_active l + cnt is_thief l <= k).
  { induction l as [|p l IH]; intros k X; simpl; [lia|]. destruct k.
    - assert (E : forall i q, nth_error (p :: l) i = Some q -> q = Ext) by (intros i q Hq; apply (X _ _ Hq); lia).
      rewrite (E 0 p eq_refl). simpl. apply (IH 0). intros i q Hq. split; [lia|]. intros _. apply (E (S i) q Hq).
    - assert (Y : cnt is_active l + cnt is_thief l <= k).
      { apply IH. intros i q Hq. rewrite (X (S i) q Hq). lia. }
      destruct p; simpl; lia. }
  apply G. apply I.
Qed.

(** No deadlock: a worker inside the pool's code can always take a step, and so can a thread inside
    notify(), unless it waits for a mutex whose holder can take a step. *)
Definition actor (c : action) : agent :=
  match c with
  | ANotify a | APush a _ _ | APrepend a _ _ _ | ANewQueue a | AStop a _ => a
  | APop w _ | APoll w | AMove w _ _ | ASetSteal w | ASteal w _ | AGiveUp w | AClear w _ | ALock w | ACas w _ | ARestore w
  | ASetSleep w | AWait w | AWake w | AUnsleep w _ | AExch w | AExec w | ADone w | APushLocal w _ _ | APushList w _ => w
  end.
Definition can_step (s : state) (a : agent) : Prop := exists c s', actor c = a /\ step c s = Some s'.
Theorem C38_worker_progress s w p v : reachable s -> w < n -> nth_error (pcs s) w = Some p -> nth_error (notes s) w = Some v ->
  cur v = None -> p <> Waiting -> p <> Exit -> can_step s w.
Proof.
  intros R L Ep Ev Cv Nw Ne. pose proof (inv_reach R) as I.
  assert (Nx : p <> Ext) by (intros ->; pose proof (proj1 (i_ext I _ Ep) eq_refl); lia).
  destruct (wk_of _ I Ep Nx) as (k & Ek). pose proof (i_w I _ Ep Ek) as O.
  assert (M : main s w = Some p) by (unfold main; rewrite Ep, Ev, Cv; auto).
  destruct p; try congruence.
  - destruct (rev (loc k)) as [|t r] eqn:E; [exists (APop w 0)|exists (APop w 0)]; eexists; (split; [reflexivity|]); simpl; rewrite M, Ek, E; reflexivity.
  - exists (APoll w). destruct qs as [|q qs]; eexists; (split; [reflexivity|]); simpl; rewrite M, ?Ek; reflexivity.
  - pose proof (o_loc O) as [L1 L2]. destruct (pend k) as [|t r] eqn:Epd; [congruence|].
    exists (AMove w (S (length r)) 1). eexists. split; [reflexivity|]. cbn [PoolModel.step]. rewrite M, Ek, L1, Epd. reflexivity.
  - exists (APop w 0). destruct (rev (loc k)) as [|t r] eqn:E; eexists; (split; [reflexivity|]); simpl; rewrite M, Ek, E; reflexivity.
  - exists (ASetSteal w). eexists. split; [reflexivity|]. simpl. rewrite M. reflexivity.
  - exists (AGiveUp w). eexists. split; [reflexivity|]. simpl. rewrite M. reflexivity.
  - exists (AClear w 0). eexists. split; [reflexivity|]. simpl. rewrite M. reflexivity.
  - exists (ALock w). eexists. split; [reflexivity|]. simpl. rewrite M, Ek. reflexivity.
  - exists (ACas w true). eexists. split; [reflexivity|]. simpl. rewrite M, Ek. destruct (st k); reflexivity.
  - exists (ARestore w). eexists. split; [reflexivity|]. simpl. rewrite M, Ek. reflexivity.
  - exists (ASetSleep w). eexists. split; [reflexivity|]. simpl. rewrite M. reflexivity.
  - exists (AWait w). eexists. split; [reflexivity|]. simpl. rewrite M. reflexivity.
  - exists (AUnsleep w 0). eexists. split; [reflexivity|]. simpl. rewrite M. reflexivity.
  - exists (AExch w). eexists. split; [reflexivity|]. simpl. rewrite M, Ek. reflexivity.
  - exists (AExec w). eexists. split; [reflexivity|]. simpl. rewrite M. reflexivity.
  - exists (ADone w). eexists. split; [reflexivity|]. simpl. rewrite M. reflexivity.
Qed.
Theorem C38_notify_progress s a v w ph : reachable s -> nth_error (notes s) a = Some v -> cur v = Some (w, ph) ->
  can_step s a \/ (locked s w = true /\ can_step s w).
Proof.
  intros R Ev Cv. pose proof (inv_reach R) as I. destruct (i_notes I _ Ev) as [X _]. pose proof (X _ _ Cv) as L. destruct ph.
  - left. exists (ANotify a). destruct (nth_error (ws s) w) as [k|] eqn:Ek; [|apply nth_error_None in Ek; rewrite (i_len I) in Ek; lia].
    eexists. split; [reflexivity|]. simpl. rewrite Ev, Cv, Ek. reflexivity.
  - destruct (locked s w) eqn:Lk.
    + right. split; auto. unfold locked in Lk. destruct (nth_error (pcs s) w) as [p|] eqn:Ep; [|discriminate].
      destruct (nth_error (ws s) w) as [k|] eqn:Ek; [|apply nth_error_None in Ek; rewrite (i_len I) in Ek; lia].
      destruct (nth_error (notes s) w) as [u|] eqn:Eu; [|apply nth_error_None in Eu; rewrite <- (i_len2 I) in Eu; pose proof (i_len3 I); lia].
      eapply C38_worker_progress; eauto; try (intros ->; discriminate). apply (o_note (i_w I _ Ep Ek) Lk Eu).
    + left. exists (ANotify a). eexists. split; [reflexivity|]. simpl. rewrite Ev, Cv, Lk. reflexivity.
  - left. exists (ANotify a). eexists. split; [reflexivity|]. simpl. rewrite Ev, Cv. reflexivity.
Qed.
End Params.

(** ** Concrete runs *)
Definition go_to_sleep (w : nat) : list action :=
  [APop w 0; APoll w; APoll w; ASetSteal w; AGiveUp w; AClear w 0; ALock w; ACas w false; APoll w; APoll w; ASetSleep w; AWait w].
Definition sleep0 : list action :=   (* worker 0, the last thief, notifies worker 1 on its way *)
  [APop 0 0; APoll 0; APoll 0; ASetSteal 0; AGiveUp 0; AClear 0 0; ANotify 0; ALock 0; ACas 0 false; APoll 0; APoll 0; ASetSleep 0; AWait 0].
Definition sleep1 : list action :=   (* worker 1 finds itself notified and tries once more *)
  [APop 1 0; APoll 1; APoll 1; ASetSteal 1; AGiveUp 1; AClear 1 0; ALock 1; ACas 1 false; AExch 1] ++ go_to_sleep 1.
(** both workers sleep; a task arrives for worker 1, which is woken and executes it *)
Definition wake_run : list action :=
  sleep0 ++ sleep1 ++ [APush 2 0 1; ANotify 2; ANotify 2; ANotify 2; AUnsleep 1 0] ++
  repeat (ANotify 1) 3 ++ [AExch 1; APop 1 0; APoll 1; APoll 1; AMove 1 1 1; APop 1 0; AExec 1].
Example C38_wake_example :
  option_map log (runs 2 wake_run (init 2 1)) = Some [EExec 1 0 1; ESubmit 0 1].
Proof. vm_compute. reflexivity. Qed.
(** the situation of C38_asleep_means_no_work and of C38_wakeup_delivered *)
Example C38_asleep_example : exists s, reachable 2 s /\ asleep s 1 /\ ~ no_work s 1.
Proof.
  assert (G : forall cs s s', reachable 2 s -> runs 2 cs s = Some s' -> reachable 2 s').
  { induction cs as [|c cs IH]; simpl; intros s s' R E; [injection E as <-; auto|].
    destruct (step 2 c s) eqn:Ec; [|discriminate]. eapply IH; [eapply r_step; eauto|auto]. }
  destruct (runs 2 (sleep0 ++ sleep1 ++ [APush 2 0 1]) (init 2 1)) as [s|] eqn:E; [|vm_compute in E; discriminate].
  exists s. split; [eapply G; [apply (r_init 2 1)|exact E]|]. vm_compute in E. injection E as <-. split; [reflexivity|].
  intros [X _]. specialize (X 0). discriminate.
Qed.
Example C38_quiescent_example : exists s, reachable 2 s /\ (forall w, w < 2 -> asleep s w) /\ (forall w, no_wakeup s w) /\ submitted 0 (log s).
Proof.
  assert (G : forall cs s s', reachable 2 s -> runs 2 cs s = Some s' -> reachable 2 s').
  { induction cs as [|c cs IH]; simpl; intros s s' R E; [injection E as <-; auto|].
    destruct (step 2 c s) eqn:Ec; [|discriminate]. eapply IH; [eapply r_step; eauto|auto]. }
  destruct (runs 2 (wake_run ++ [AUnsleep 0 0; AExch 0] ++ sleep0 ++ [ADone 1] ++ sleep1) (init 2 1)) as [s|] eqn:E; [|vm_compute in E; discriminate].
  exists s. split; [eapply G; [apply (r_init 2 1)|exact E]|]. vm_compute in E. injection E as <-.
  split; [|split].
  - intros [|[|w]] L; [reflexivity|reflexivity|lia].
  - intros w ph (a & v & Ea & Ca). destruct a as [|[|[|[|a]]]]; simpl in Ea; try discriminate; injection Ea as <-; discriminate.
  - exists 1. simpl. auto.
Qed.
(** a task that enqueues two more: one is executed by its worker, the other is stolen *)
Example C38_steal_example :
  option_map log (runs 2 ([APush 2 0 0; ANotify 2; APop 0 0; APoll 0; APoll 0; AMove 0 1 1; APop 0 0; AExec 0;
     APushLocal 0 false 1; APushLocal 0 false 1; APop 1 0; APoll 1; APoll 1; ASetSteal 1; ASteal 1 0; AClear 1 0] ++
     [ANotify 1; AExec 1; ADone 0; APop 0 0; AExec 0]) (init 2 1))
  = Some [EExec 0 2 0; EExec 1 1 0; ESubmit 2 0; ESubmit 1 0; EExec 0 0 0; ESubmit 0 0].
Proof. vm_compute. reflexivity. Qed.
(** One may expect that tasks submitted before request_stop() are executed before the workers exit.
    This is false: here the only worker exits and task 0 stays in a remote queue for ever. *)
Example C38_stop_drains_refuted :
  option_map (fun s => (log s, map snd (rem s), pcs s)) (runs 1
     [APop 0 0; APoll 0; APush 1 0 0; ANotify 1; AStop 1 0; ANotify 1; APoll 0; ASetSteal 0; AGiveUp 0; AClear 0 0; ALock 0] (init 1 1))
  = Some ([ESubmit 0 0], [0], [Exit; Ext]).
Proof. vm_compute. reflexivity. Qed.

Print Assumptions C38_asleep_means_no_work.
Print Assumptions C38_wakeup_delivered.
Print Assumptions C38_at_most_once.
Print Assumptions C38_queue_index.
Print Assumptions C38_quiescent.
Print Assumptions C38_not_lost.
Print Assumptions C38_active_count.
Print Assumptions C38_notify_progress.
