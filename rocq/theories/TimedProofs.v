(** Invariant of timed_thread_context. *)
From Coq Require Import List ZArith Bool Arith Lia.
From Verif Require Import Conc MpscModel MpscProofs TimedModel.
Import ListNotations.
Set Implicit Arguments.
Open Scope Z_scope.
Arguments Z.add : simpl never.
Arguments Z.sub : simpl never.
Arguments Z.mul : simpl never.
Arguments Z.of_nat : simpl never.
Arguments Nat.mul : simpl never.
Arguments nodeS : simpl never.
Arguments nodeK : simpl never.
Arguments context_closed : simpl never.

Notation busy := MpscModel.busy.
Definition bz (b : bool) : Z := if b then 1 else 0.
Definition occ (w : nat) (l : list nat) : Z := Z.of_nat (count_occ Nat.eq_dec l w).
Definition comps (i : nat) (l : list event) : nat :=
  cnt (fun e => match e with EComp j _ _ => Nat.eqb j i | _ => false end) l.
Arguments comps : simpl never.
Arguments occ : simpl never.

(** Places that hold the reference of the operation itself, that of its stop
    command; the thread that dropped the last one. *)
Definition sM (p : spc) : Z := match p with S3 | SF _ => 1 | _ => 0 end.
Definition kT (p : kpc) : Z := match p with K2 | KF _ => 1 | _ => 0 end.
Definition rM (r : rpc) (i : nat) : Z :=
  match r with RCmd n => bz (n =? nodeS i)%nat | RX j _ | RT j | RY j => bz (j =? i)%nat | _ => 0 end.
Definition rT (r : rpc) (i : nat) : Z :=
  match r with RCmd n => bz (n =? nodeK i)%nat | RT j | RV j => bz (j =? i)%nat | _ => 0 end.
Definition rF (r : rpc) (i : nat) : Z :=
  match r with RTc j | RVc j | RXc j _ | RYc j => bz (j =? i)%nat | _ => 0 end.
Definition sF (p : spc) : Z := match p with SA | SFc _ => 1 | _ => 0 end.
Definition kF (p : kpc) : Z := match p with KFc _ => 1 | _ => 0 end.

Definition tokM (s : state) (i : nat) (o : oper) : Z :=
  sM (sp o) + bz (busy (mq s) (nodeS i)) + rM (rp s) i + occ i (heap s).
Definition tokT (s : state) (i : nat) (o : oper) : Z :=
  kT (kp o) + bz (busy (mq s) (nodeK i)) + rT (rp s) i.
Definition last (s : state) (i : nat) (o : oper) : Z := sF (sp o) + kF (kp o) + rF (rp s) i.
Definition done (s : state) (i : nat) : Z := Z.of_nat (comps i (log s)).

Definition early (k : kpc) : bool := match k with KNone | KReg | K1 => true | _ => false end.
Definition idle (k : kpc) : bool := match k with KNone | KReqd => true | _ => false end.
Definition ok (p : spc) (k : kpc) (r M T F C : Z) : Prop :=
  0 <= M <= 1 /\ 0 <= T <= 1 /\ 0 <= F /\
  match p with
  | S0 | S1 => r = 0 /\ M + T + F + C = 0 /\ idle k = true
  | S2 => r = bz (negb (early k)) /\ M + T + F + C = 0 /\ match k with KReg | K1 | KReqd => True | _ => False end
  | SA => M + T + C = 0 /\ F = 1 /\ k = KReqd
  | _ => (early k = true -> r = M /\ T = 0) /\
         (0 < M + T -> r = M + T /\ F + C = 0) /\
         (M + T = 0 -> F + C = 1)
  end.

Definition win (o : oper) : Z :=
  match sp o with SP | S5 | S6 => 1 | _ => 0 end + match kp o with KP | K5 | K6 => 1 | _ => 0 end.
Definition owner (p : pc) : option nat :=
  match p with Idle => None | PNull n | PXchg n | PLink _ n => Some n end.
Definition pushS (p : spc) : bool := match p with SP => true | _ => false end.
Definition pushK (p : kpc) : bool := match p with KP => true | _ => false end.
Definition now_of (r : rpc) : option Z :=
  match r with RF t | RX _ t | RXc _ t => Some t | _ => None end.
Definition fires (r : rpc) (i : nat) : option Z :=
  match r with RX j t | RXc j t => if (j =? i)%nat then Some t else None | _ => None end.
Definition closing (r : rpc) : bool := match r with RC | RD | RY _ | RYc _ | RExit => true | _ => false end.
Definition closedS (p : spc) : bool := match p with SF _ | SFc _ | SG _ => true | _ => false end.
Definition closedK (p : kpc) : bool := match p with KF _ | KFc _ | KG _ => true | _ => false end.
Definition stopcmd (r : rpc) (i : nat) : bool :=
  match r with RT j | RTc j | RV j | RVc j => (j =? i)%nat | RCmd n => (n =? nodeK i)%nat | _ => false end.

Definition rop (r : rpc) : option nat :=
  match r with RT j | RTc j | RV j | RVc j | RX j _ | RXc j _ | RY j | RYc j => Some j | _ => None end.

Record inv (s : state) : Prop := {
  i_mq : MpscModel.reachable (mq s);
  i_ok : forall i o, nth_error (ops s) i = Some o ->
           ok (sp o) (kp o) (ref o) (tokM s i o) (tokT s i o) (last s i o) (done s i);
  i_len : length (thr (mq s)) = S (2 * length (ops s));
  i_ts : forall i o p, nth_error (ops s) i = Some o -> nth_error (thr (mq s)) (nodeS i) = Some p ->
           owner p = if pushS (sp o) then Some (nodeS i) else None;
  i_tk : forall i o p, nth_error (ops s) i = Some o -> nth_error (thr (mq s)) (nodeK i) = Some p ->
           owner p = if pushK (kp o) then Some (nodeK i) else None;
  i_con : con (mq s) = CIdle <-> rp s <> RPop;
  i_bd : forall n, busy (mq s) n = true \/ rp s = RCmd n -> (0 < n <= 2 * length (ops s))%nat;
  i_hd : forall i, In i (heap s) -> (i < length (ops s))%nat;
  i_ns : In EStop (log s) \/ nsub s = sumz win (ops s);
  i_sq : stopq s = true \/ closing (rp s) = true -> In EStop (log s);
  i_cl : forall i o, nth_error (ops s) i = Some o -> closedS (sp o) || closedK (kp o) = true -> In EStop (log s);
  i_kr : forall i o, nth_error (ops s) i = Some o ->
           (match kp o with KNone | KReg => False | _ => True end) -> In (EReq i) (log s);
  i_kt : forall i o, nth_error (ops s) i = Some o ->
           busy (mq s) (nodeK i) = true \/ stopcmd (rp s) i = true ->
           match kp o with KNone | KReg | K1 | K2 => False | _ => True end;
  i_now : forall t, now_of (rp s) = Some t -> t <= clock s;
  i_due : forall i o t, nth_error (ops s) i = Some o -> fires (rp s) i = Some t -> tm o <= t;
  i_val : forall i o t, nth_error (ops s) i = Some o -> In (EComp i Value t) (log s) -> tm o <= t;
  i_stp : forall i t, In (EComp i Stopped t) (log s) -> In (EReq i) (log s) \/ In EStop (log s);
  i_rtc : forall i, rp s <> RTc i;
  i_ri : forall i, rop (rp s) = Some i -> (i < length (ops s))%nat
}.

Lemma nodeS_inj i j : (nodeS i =? nodeS j)%nat = (i =? j)%nat.
Proof. unfold nodeS. destruct (Nat.eqb_spec i j), (Nat.eqb_spec (S (2 * i)) (S (2 * j))); lia. Qed.
Lemma nodeK_inj i j : (nodeK i =? nodeK j)%nat = (i =? j)%nat.
Proof. unfold nodeK. destruct (Nat.eqb_spec i j), (Nat.eqb_spec (S (S (2 * i))) (S (S (2 * j)))); lia. Qed.
Lemma nodeSK i j : (nodeS i =? nodeK j)%nat = false.
Proof. unfold nodeK, nodeS. apply Nat.eqb_neq. lia. Qed.
Lemma nodeKS i j : (nodeK i =? nodeS j)%nat = false.
Proof. unfold nodeK, nodeS. apply Nat.eqb_neq. lia. Qed.
Lemma op_of_S i : op_of (nodeS i) = i.
Proof. unfold op_of, nodeS. simpl pred. apply Nat.div2_double. Qed.
Lemma op_of_K i : op_of (nodeK i) = i.
Proof. unfold op_of, nodeK. simpl pred. apply Nat.div2_succ_double. Qed.
Lemma stop_S i : is_stop (nodeS i) = false.
Proof. unfold is_stop, nodeS. rewrite Nat.even_succ, <- Nat.negb_even, Nat.even_mul. reflexivity. Qed.
Lemma stop_K i : is_stop (nodeK i) = true.
Proof. unfold is_stop, nodeK. rewrite Nat.even_succ_succ, Nat.even_mul. reflexivity. Qed.
Lemma node_cases n N : (0 < n <= 2 * N)%nat -> exists i, (i < N)%nat /\ (n = nodeS i \/ n = nodeK i).
Proof.
  intros H. destruct (Nat.Even_or_Odd n) as [[k E]|[k E]].
  - exists (pred k). split; [lia|]. right. unfold nodeK. lia.
  - exists k. split; [lia|]. left. unfold nodeS. lia.
Qed.

Lemma occ_cons w a l : occ w (a :: l) = bz (a =? w)%nat + occ w l.
Proof. unfold occ; simpl. destruct (Nat.eq_dec a w), (Nat.eqb_spec a w); simpl; lia. Qed.
Lemma occ_nn w l : 0 <= occ w l. Proof. unfold occ; lia. Qed.
Lemma occ_in w l : In w l <-> 0 < occ w l.
Proof. unfold occ. rewrite (count_occ_In Nat.eq_dec). lia. Qed.
Lemma occ_remove w k l : occ w (remove Nat.eq_dec k l) = if Nat.eqb k w then 0 else occ w l.
Proof.
  induction l as [|a l IH]; [unfold occ; simpl; destruct (k =? w)%nat; reflexivity|].
  cbn [remove]. destruct (Nat.eq_dec k a) as [->|N].
  - rewrite IH, occ_cons. destruct (Nat.eqb_spec a w); simpl; lia.
  - rewrite !occ_cons, IH. destruct (Nat.eqb_spec a w), (Nat.eqb_spec k w); simpl; subst; try lia; contradiction.
Qed.
Lemma occ_insert f w i h : occ w (insert f i h) = bz (i =? w)%nat + occ w h.
Proof.
  induction h as [|j h IH]; simpl; [rewrite occ_cons; reflexivity|].
  destruct (f j <=? f i); rewrite !occ_cons, ?IH; rewrite ?occ_cons; lia.
Qed.
Lemma comps_cons k a l :
  Z.of_nat (comps k (a :: l)) = match a with EComp j _ _ => bz (j =? k)%nat | _ => 0 end + Z.of_nat (comps k l).
Proof. unfold comps; simpl. destruct a; simpl; auto; destruct (Nat.eqb i k); simpl; lia. Qed.
Lemma bz_nn b : 0 <= bz b. Proof. destruct b; simpl; lia. Qed.
Lemma rM_nn r i : 0 <= rM r i. Proof. destruct r; simpl; try lia; apply bz_nn. Qed.
Lemma rT_nn r i : 0 <= rT r i. Proof. destruct r; simpl; try lia; apply bz_nn. Qed.
Lemma rF_nn r i : 0 <= rF r i. Proof. destruct r; simpl; try lia; apply bz_nn. Qed.
Lemma kT_nn r : 0 <= kT r. Proof. destruct r; simpl; lia. Qed.
Lemma kF_nn r : 0 <= kF r. Proof. destruct r; simpl; lia. Qed.
Lemma sM_nn r : 0 <= sM r. Proof. destruct r; simpl; lia. Qed.
Lemma sF_nn r : 0 <= sF r. Proof. destruct r; simpl; lia. Qed.
Lemma win_nn o : 0 <= win o. Proof. unfold win; destruct (sp o), (kp o); lia. Qed.

(** ** Steps of the queue *)
Lemma q_push m t n m' : MpscModel.step t (APush n) m = Some m' ->
  busy m n = false /\ busy m' = fset (busy m) n true /\ con m' = con m /\ chain m' = chain m /\
  nth_error (thr m) t = Some Idle /\ thr m' = upd (thr m) t (PNull n) /\ MpscModel.log m' = MpscModel.log m.
Proof.
  simpl. destruct (nth_error (thr m) t) as [[]|] eqn:E; try discriminate.
  destruct (busy m n) eqn:B; simpl; [discriminate|]. destruct (n =? stub)%nat; [discriminate|].
  intros H; injection H as <-; simpl. auto 8.
Qed.
Lemma q_prod m t m' : MpscModel.step t AProd m = Some m' ->
  busy m' = busy m /\ con m' = con m /\
  exists p p', nth_error (thr m) t = Some p /\ thr m' = upd (thr m) t p' /\
    match p with
    | PNull n => p' = PXchg n /\ chain m' = chain m
    | PXchg n => (exists q, p' = PLink q n) /\ chain m' = chain m ++ [n]
    | PLink _ _ => p' = Idle /\ chain m' = chain m
    | Idle => False end.
Proof.
  simpl. destruct (nth_error (thr m) t) as [[]|] eqn:E; try discriminate;
    intros H; injection H as <-; simpl; split; auto; split; auto; eexists; eexists; eauto 8.
Qed.
Lemma q_pop m m' : MpscModel.step 0%nat APop m = Some m' ->
  busy m' = busy m /\ con m' <> CIdle /\ thr m' = thr m /\ chain m' = chain m /\ con m = CIdle.
Proof. simpl. destruct (con m); try discriminate; intros H; injection H as <-; simpl; split; auto; split; [discriminate|auto]. Qed.
Lemma q_cons m m' : MpscModel.reachable m -> MpscModel.step 0%nat ACons m = Some m' ->
  thr m' = thr m /\ con m <> CIdle /\
  ((busy m' = busy m /\ nonstub (chain m') = nonstub (chain m) /\
    (con m' <> CIdle \/ exists l, con m' = CIdle /\ MpscModel.log m' = ENull :: l)) \/
   (con m' = CIdle /\ exists n, MpscModel.log m' = EDeq n :: MpscModel.log m /\ busy m n = true /\
      busy m' = fset (busy m) n false /\ nonstub (chain m) = n :: nonstub (chain m'))).
Proof.
  intros R H. pose proof (MpscProofs.reachable_inv R) as I.
  assert (RT : forall nx c, tail m <> stub -> m' = return_tail m nx -> con m = c ->
    (con m' = CIdle /\ exists n, MpscModel.log m' = EDeq n :: MpscModel.log m /\ busy m n = true /\
      busy m' = fset (busy m) n false /\ nonstub (chain m) = n :: nonstub (chain m'))).
  { intros nx c N -> _. simpl. split; [reflexivity|]. exists (tail m). destruct (i_tail I) as [r E].
    split; [reflexivity|]. split; [|split; [reflexivity|]].
    - apply (chain_busy I); auto. rewrite E. left; reflexivity.
    - rewrite E. simpl. destruct (Nat.eqb_spec (tail m) stub); [contradiction|reflexivity]. }
  simpl in H. unfold cons_step in H. destruct (con m) eqn:C; try discriminate.
  - destruct (next m (tail m)) as [nx|] eqn:Nx.
    + destruct (Nat.eqb_spec (tail m) stub) as [T|T].
      * injection H as <-; simpl. split; auto. split; [discriminate|]. left. split; auto. split; [|left; discriminate].
        destruct (i_tail I) as [r E]. rewrite E. simpl. rewrite T. reflexivity.
      * injection H as <-. split; [reflexivity|]. split; [discriminate|]. right. eauto.
    + destruct (Nat.eqb_spec (tail m) stub) as [T|T]; injection H as <-; simpl; (split; [reflexivity|]; split; [discriminate|]); left; split; auto; split; auto.
      * right. eauto.
      * left; discriminate.
  - assert (T : tail m <> stub) by (apply (i_past I); rewrite C; exact Logic.I).
    destruct (next m (tail m)) as [nx|] eqn:Nx; injection H as <-; (split; [reflexivity|]; split; [discriminate|]).
    + right. eauto.
    + left. simpl. split; auto. split; auto. left; discriminate.
  - destruct (tail m =? head m)%nat; injection H as <-; simpl; (split; [reflexivity|]; split; [discriminate|]); left; split; auto; split; auto.
    + left; discriminate.
    + right; eauto.
  - injection H as <-; simpl; (split; [reflexivity|]; split; [discriminate|]); left; split; auto; split; auto. left; discriminate.
  - injection H as <-; simpl; (split; [reflexivity|]; split; [discriminate|]); left; split; auto; split; [|left; discriminate].
    unfold nonstub. rewrite filter_app. simpl. apply app_nil_r.
  - injection H as <-; simpl; (split; [reflexivity|]; split; [discriminate|]); left; split; auto; split; auto. left; discriminate.
  - assert (T : tail m <> stub) by (apply (i_past I); rewrite C; exact Logic.I).
    destruct (next m (tail m)) as [nx|] eqn:Nx; injection H as <-; (split; [reflexivity|]; split; [discriminate|]).
    + right. eauto.
    + left. simpl. split; auto. split; auto. right; eauto.
Qed.

(** ** The initial state *)
Lemma init_inv l c : inv (init l c).
Proof.
  assert (N : forall i o, nth_error (map (fun t => mko t 0 S0 KNone) l) i = Some o ->
      sp o = S0 /\ kp o = KNone /\ ref o = 0).
  { intros i o E. apply nth_error_In in E. apply in_map_iff in E. destruct E as [t [<- _]]. auto. }
  unfold init; constructor; cbn [mq ops heap rp nsub ready stopq clock log MpscModel.thr MpscModel.con MpscModel.busy MpscModel.init].
  - apply MpscModel.r_init.
  - intros i o E. destruct (N _ _ E) as [E1 [E2 E3]]. unfold tokM, tokT, last, done, occ, comps; rewrite E1, E2, E3; simpl.
    repeat split; lia.
  - rewrite repeat_length, map_length. reflexivity.
  - intros i o p E F. destruct (N _ _ E) as [-> _]. simpl. apply nth_repeat_some in F. subst. reflexivity.
  - intros i o p E F. destruct (N _ _ E) as [_ [-> _]]. simpl. apply nth_repeat_some in F. subst. reflexivity.
  - split; auto. discriminate.
  - intros n [H|H]; discriminate.
  - intros i [].
  - right. induction l as [|a l IH]; simpl; [reflexivity|]. rewrite <- IH; [reflexivity|].
    intros i o E. apply (N (S i) o E).
  - intros [H|H]; discriminate H.
  - intros i o E. destruct (N _ _ E) as [-> [-> _]]. discriminate.
  - intros i o E. destruct (N _ _ E) as [_ [-> _]]. intros [].
  - intros i o E [|]; discriminate.
  - discriminate.
  - discriminate.
  - intros i o t _ [].
  - intros i t [].
  - discriminate.
  - discriminate.
Qed.

(** ** Steps *)
Ltac pr := cbn [mq ops heap rp nsub ready stopq clock log set_mq set_op set_heap set_rp set_nsub set_ready
                set_stop set_clock emit w_ref w_sp w_kp tm ref sp kp] in *.
Ltac nths :=
  repeat match goal with
  | Hp : nth_error (ops ?s) ?k = Some _, E : context [nth_error (upd (ops ?s) ?k _) _] |- _ =>
      rewrite (nth_upd _ _ _ _ Hp) in E
  | Hp : nth_error (ops ?s) ?k = Some _ |- context [nth_error (upd (ops ?s) ?k _) _] =>
      rewrite (nth_upd _ _ _ _ Hp)
  end.
Ltac sums :=
  repeat match goal with
  | Hp : nth_error (ops ?s) ?k = Some _ |- context [sumz ?w (upd (ops ?s) ?k ?q)] =>
      rewrite (@sumz_upd _ w _ _ q _ Hp)
  end.
Ltac inj :=
  repeat match goal with
  | E : Some _ = Some _ |- _ => injection E; clear E; intros; subst
  end.
Ltac eqi :=
  repeat match goal with
  | E : (if Nat.eqb ?a ?b then _ else _) = Some _ |- _ => destruct (Nat.eqb_spec a b); [subst; inj|]
  end.
Ltac rws :=
  repeat match goal with
  | E : sp _ = _ |- _ => rewrite E in *; revert E
  | E : kp _ = _ |- _ => rewrite E in *; revert E
  | E : rp _ = _ |- _ => rewrite E in *; revert E
  | E : heap _ = _ |- _ => rewrite E in *; revert E
  | E : busy ?m = _ |- _ => rewrite E in *; revert E
  | E : thr ?m = thr _ |- _ => rewrite E in *; revert E
  | E : con ?m = con _ |- _ => rewrite E in *; revert E
  end; intros.
Ltac bzs :=
  repeat match goal with
  | E : context [Nat.eqb ?a ?b] |- _ => destruct (Nat.eqb_spec a b); try subst; try contradiction
  | |- context [Nat.eqb ?a ?b] => destruct (Nat.eqb_spec a b); try subst; try contradiction
  end.


Lemma ok_eq p k r M T F C M' T' F' C' :
  ok p k r M T F C -> M = M' -> T = T' -> F = F' -> C = C' -> ok p k r M' T' F' C'.
Proof. intros; subst; assumption. Qed.
Lemma bz_false (a b : nat) : a <> b -> bz (a =? b)%nat = 0.
Proof. intros H. apply Nat.eqb_neq in H. rewrite H. reflexivity. Qed.
Lemma bz_refl (a : nat) : bz (a =? a)%nat = 1.
Proof. rewrite Nat.eqb_refl. reflexivity. Qed.
Lemma fset_eqb A (f : nat -> A) a v b : fset f a v b = if (a =? b)%nat then v else f b.
Proof. unfold fset. rewrite Nat.eqb_sym. reflexivity. Qed.

Ltac nodes :=
  rewrite ?occ_cons, ?occ_remove, ?occ_insert, ?comps_cons, ?fset_eqb, ?nodeS_inj, ?nodeK_inj, ?nodeSK, ?nodeKS, ?Nat.eqb_refl in *.
Ltac lz := cbn [rM rT rF sM sF kT kF bz early idle negb] in *.
Ltac unf := unfold tokM, tokT, last, done in *; pr; rws; lz; nodes; lz.

Section Step.
Variable s : state.
Hypothesis I : inv s.

(** the tokens of the other operations do not change *)
Ltac other :=
  match goal with
  | Hi : nth_error (ops s) ?j = Some ?o |- ok (sp ?o) _ _ _ _ _ _ =>
     eapply ok_eq; [exact (i_ok I _ Hi)|unf..]
  end.
Ltac fo :=
  try solve [intuition lia];
  try solve [match goal with |- context [sp ?o] => destruct (sp o) eqn:? end; lz; intuition (try lia; try congruence; try discriminate)];
  try solve [match goal with |- context [kp ?o] => destruct (kp o) eqn:? end; lz; intuition (try lia; try congruence; try discriminate)].
Ltac f_mq := first [exact (i_mq I)|eapply MpscModel.r_step; [exact (i_mq I)|eassumption]].
Ltac f_ok := let j := fresh "j" in let o' := fresh "o'" in let E := fresh "E" in
  intros j o' E; nths; eqi; pr;
  first [solve [other; bzs; try match goal with E : busy _ _ = _ |- _ => rewrite E in * end; cbn [bz]; lia]
  |try match goal with Hi : nth_error (ops s) j = Some ?o |- _ => let K := fresh "K" in
     pose proof (i_ok I _ Hi) as K; pose proof (bz_nn (busy (mq s) (nodeS j))); pose proof (bz_nn (busy (mq s) (nodeK j)));
     pose proof (occ_nn j (heap s)); pose proof (rM_nn (rp s) j); pose proof (rT_nn (rp s) j); pose proof (rF_nn (rp s) j);
     pose proof (kT_nn (kp o)); pose proof (kF_nn (kp o)); pose proof (sM_nn (sp o)); pose proof (sF_nn (sp o));
     unf;
     try match goal with E : busy _ _ = _ |- _ => rewrite E in * end; unfold ok in *; lz; first [progress fo|bzs; lz; fo|idtac] end].
Ltac f_len := try match goal with E : thr ?m = _ |- _ => rewrite E end; rewrite ?upd_length; exact (i_len I).
Ltac tidy := nths; eqi; pr; rws.
Ltac thrs F :=
  try match goal with Q6 : thr ?m = upd _ _ _, Q5 : nth_error (thr (mq s)) _ = Some _ |- _ =>
    rewrite Q6, (nth_upd _ _ _ _ Q5), ?nodeS_inj, ?nodeK_inj, ?nodeSK, ?nodeKS in F end.
Ltac f_ts := let j := fresh "j" in let o' := fresh "o'" in let p := fresh "p" in let E := fresh "E" in let F := fresh "F" in
  intros j o' p E F; thrs F; tidy; try contradiction;
  try solve [exact (i_ts I _ E F) |
    match goal with Hi : nth_error (ops s) j = Some _ |- _ => rewrite (i_ts I _ Hi F) end; rws; reflexivity | reflexivity |
    match goal with A : nth_error (ops s) j = Some _, B : nth_error (ops s) j = Some _ |- _ => rewrite A in B; inj; rws; reflexivity end].
Ltac f_tk := let j := fresh "j" in let o' := fresh "o'" in let p := fresh "p" in let E := fresh "E" in let F := fresh "F" in
  intros j o' p E F; thrs F; tidy; try contradiction;
  try solve [exact (i_tk I _ E F) |
    match goal with Hi : nth_error (ops s) j = Some _ |- _ => rewrite (i_tk I _ Hi F) end; rws; reflexivity | reflexivity |
    match goal with A : nth_error (ops s) j = Some _, B : nth_error (ops s) j = Some _ |- _ => rewrite A in B; inj; rws; reflexivity end].
Ltac f_con := try solve [exact (i_con I) | pose proof (i_con I); rws; intuition congruence].
Ltac f_bd := rewrite ?upd_length; let n := fresh "n" in let H := fresh "H" in intros n H; pr;
  try solve [apply (i_bd I); rws; intuition congruence];
  rws; nodes;
  repeat match goal with H : context [Nat.eqb ?a n] |- _ => destruct (Nat.eqb_spec a n); try subst end;
  try solve [apply (i_bd I); rws; intuition congruence];
  try match goal with Hi : nth_error (ops s) ?i = Some _ |- _ => 
    let L := fresh in assert (L : (i < length (ops s))%nat) by (apply nth_error_Some; congruence); unfold nodeS, nodeK; lia end.
Ltac f_hd := rewrite ?upd_length; try exact (i_hd I);
  let j := fresh "j" in let G := fresh "G" in intros j G; apply occ_in in G; nodes;
  try (pose proof (i_hd I j) as X; rws; rewrite ?occ_in, ?occ_cons in X; bzs; lz; try assumption; apply X; try pose proof (bz_nn); bzs; lz; try lia; fail).
Ltac f_ns := let G := fresh "G" in destruct (i_ns I) as [G|G]; [left; simpl; tauto|
  try (right; sums; rewrite G; unfold win; pr; rws; lia)].
Ltac f_sq := let G := fresh "G" in intros G; pose proof (i_sq I); rws; simpl in *; try tauto.
Ltac f_cl := let j := fresh "j" in let o' := fresh "o'" in let E := fresh "E" in let G := fresh "G" in
  intros j o' E G; tidy;
  match goal with Hi : nth_error (ops s) j = Some _ |- _ => pose proof (i_cl I _ Hi) end; rws; simpl in *; try tauto; try discriminate.
Ltac f_kr := let j := fresh "j" in let o' := fresh "o'" in let E := fresh "E" in let G := fresh "G" in
  intros j o' E G; tidy;
  match goal with Hi : nth_error (ops s) j = Some _ |- _ => pose proof (i_kr I _ Hi) end; rws; simpl in *; try tauto; try discriminate.
Ltac f_kt := let j := fresh "j" in let o' := fresh "o'" in let E := fresh "E" in let G := fresh "G" in
  intros j o' E G; tidy;
  match goal with Hi : nth_error (ops s) j = Some _ |- _ => pose proof (i_kt I _ Hi) end; rws; cbn [stopcmd] in *; nodes; simpl in *; try tauto; try discriminate;
  try solve [bzs; tauto].
Ltac f_now := let t := fresh "t" in let G := fresh "G" in intros t G; pose proof (@i_now _ I t); rws; simpl in *; try tauto; try discriminate; try solve [intuition lia].
Ltac f_due := let j := fresh "j" in let o' := fresh "o'" in let E := fresh "E" in let G := fresh "G" in let t := fresh "t" in
  intros j o' t E G; tidy;
  match goal with Hi : nth_error (ops s) j = Some _ |- _ => pose proof (fun H => @i_due _ I _ _ t Hi H) end; rws; simpl in *; try tauto; try discriminate.
Ltac f_val := let j := fresh "j" in let o' := fresh "o'" in let E := fresh "E" in let G := fresh "G" in let t := fresh "t" in
  intros j o' t E G; simpl in G;
  repeat match type of G with _ \/ _ => destruct G as [G|G]; [try discriminate G|] end; tidy;
  try match goal with Hi : nth_error (ops s) j = Some _ |- _ => solve [pr; exact (i_val I _ _ Hi G)] end.
Ltac f_stp := let j := fresh "j" in let G := fresh "G" in let t := fresh "t" in
  intros j t G; simpl in G;
  repeat match type of G with _ \/ _ => destruct G as [G|G]; [try discriminate G|] end;
  try solve [destruct (i_stp I _ _ G); simpl; tauto].
Ltac stp_new := match goal with G : EComp _ _ _ = EComp _ _ _ |- _ => injection G; clear G; intros; subst end.
Ltac f_rtc := let j := fresh "j" in intros j; pose proof (@i_rtc _ I j); rws; try congruence; try discriminate.
Ltac f_ri := rewrite ?upd_length; let j := fresh "j" in let G := fresh "G" in intros j G; pr; try solve [apply (i_ri I); rws; exact G];
  rws; simpl in G; try discriminate G; inj; try assumption;
  try solve [apply (i_hd I); rws; simpl; tauto].
Ltac go := constructor; pr; [f_mq|f_ok|f_len|f_ts|f_tk|f_con|f_bd|f_hd|f_ns|f_sq|f_cl|f_kr|f_kt|f_now|f_due|f_val|f_stp|f_rtc|f_ri].

Lemma user_inv a s' : (match a with AStart _ | AReq _ | AStop | ATick => True | _ => False end) ->
  step a s = Some s' -> inv s'.
Proof.
  intros A H. destruct a; try contradiction; clear A; cbn [step] in H.
  - destruct (nth_error (ops s) i) as [o|] eqn:Hi; [|discriminate].
    destruct (sp o) eqn:Es; try discriminate. inj. go.
  - destruct (nth_error (ops s) i) as [o|] eqn:Hi; [|discriminate].
    destruct (kp o) eqn:Es; try discriminate; inj; go. Show.
  - destruct (stopq s) eqn:Es; try discriminate; inj; go.
  - inj; go.
Qed.

Lemma reset_cases k k' : reset k = Some k' -> k' = k /\ idle k = true \/ k = KReg /\ k' = KNone.
Proof. destruct k; simpl; try discriminate; intros H; injection H as <-; auto. Qed.

Lemma neg_stop : nsub s < 0 -> In EStop (log s).
Proof. intros H. destruct (i_ns I) as [G|G]; auto. pose proof (sumz_nonneg win (ops s) win_nn). lia. Qed.

Lemma push_cases t s1 r : push_step t s = Some (s1, r) ->
  exists m, MpscModel.step t AProd (mq s) = Some m /\ busy m = busy (mq s) /\ con m = con (mq s) /\
  exists p p', nth_error (thr (mq s)) t = Some p /\ thr m = upd (thr (mq s)) t p' /\
    match p with
    | PNull n => p' = PXchg n /\ r = None
    | PXchg n => (exists q, p' = PLink q n) /\ r = None
    | PLink q _ => p' = Idle /\ r = Some (q =? stub)%nat
    | Idle => False end /\ s1 = set_mq s m.
Proof.
  unfold push_step. destruct (MpscModel.step t AProd (mq s)) as [m|] eqn:E; [|discriminate].
  intros H. injection H as <- <-. exists m. destruct (q_prod _ _ E) as [A [B [p [p' [C [D F]]]]]].
  split; auto. split; auto. split; auto. exists p, p'. rewrite C. split; auto. split; auto.
  split; auto. destruct p; try contradiction; destruct F; auto.
Qed.

Lemma s_inv i o s' : nth_error (ops s) i = Some o -> s_step i o s = Some s' -> inv s'.
Proof.
  intros Hi H. unfold s_step in H. destruct (sp o) eqn:Es; try discriminate.
  - (* S1 *) destruct (kp o) eqn:Ek; try discriminate; inj; go.
  - (* S2 *) destruct (ref o =? 0) eqn:Er; inj; [apply Z.eqb_eq in Er|apply Z.eqb_neq in Er]; go.
  - (* SA *) unfold finish in H. pr. destruct (reset (kp o)) as [k|] eqn:Ek; [|discriminate]. 
    apply reset_cases in Ek. inj.
    pose proof (i_ok I _ Hi) as K. unfold ok in K. rewrite Es in K. destruct K as [_ [_ [_ [K1 [K2 K]]]]].
    rewrite K in Ek. destruct Ek as [[-> _]|[Ek _]]; [|discriminate]. go.
    stp_new. left. right. apply (i_kr I _ Hi). rewrite K. exact Logic.I.
  - (* S3 *) destruct (nsub s <? 0) eqn:En. 
    + apply Z.ltb_lt in En. pose proof (neg_stop En). inj. go; try (left; assumption).
    + apply Z.ltb_ge in En. destruct (MpscModel.step (nodeS i) (APush (nodeS i)) (mq s)) as [m|] eqn:Em; [|discriminate].
      inj. destruct (q_push _ _ _ Em) as [Q1 [Q2 [Q3 [Q4 [Q5 [Q6 Q7]]]]]]. go.
  - (* SP *) destruct (push_step (nodeS i) s) as [[s1 r]|] eqn:Ep; [|discriminate].
    destruct (push_cases _ Ep) as [m [Q1 [Q2 [Q3 [p [p' [Q5 [Q6 [Q7 ->]]]]]]]]]. clear Ep. 
    pose proof (i_ts I _ Hi Q5) as Ow. rewrite Es in Ow. simpl in Ow.
    destruct p as [|n|n|q n]; try contradiction; destruct Q7 as [Q7 Er]; subst r; simpl in Ow; inj.
    + go.
    + destruct Q7 as [q ->]. go.
    + destruct (q =? stub)%nat; inj; go.
  - (* S5 *) inj. go.
  - (* S6 *) inj. go.
  - (* SF *) inj. destruct (ref o =? 1) eqn:Er; [apply Z.eqb_eq in Er|apply Z.eqb_neq in Er]; go.
  - (* SFc *) unfold finish in H. pr. destruct (reset (kp o)) as [k|] eqn:Ek; [|discriminate]. 
    apply reset_cases in Ek. inj.
    assert (Cl : In EStop (log s)) by (apply (i_cl I _ Hi); rewrite Es; reflexivity).
    destruct Ek as [[-> _]|[Ek ->]]; go; right; right; exact Cl.
  - (* SG *)
    assert (Cl : In EStop (log s)) by (apply (i_cl I _ Hi); rewrite Es; reflexivity).
    destruct (nsub s =? n) eqn:Er; inj; go; left; right; exact Cl.
Qed.

Lemma k_inv i o s' : nth_error (ops s) i = Some o -> k_step i o s = Some s' -> inv s'.
Proof.
  intros Hi H. unfold k_step in H. destruct (kp o) eqn:Es; try discriminate.
  - (* K1 *) inj. destruct (ref o =? 1) eqn:Er; [apply Z.eqb_eq in Er|apply Z.eqb_neq in Er]; go.
  - (* K2 *) destruct (nsub s <? 0) eqn:En. 
    + apply Z.ltb_lt in En. pose proof (neg_stop En). inj. go; try (left; assumption).
    + apply Z.ltb_ge in En. destruct (MpscModel.step (nodeK i) (APush (nodeK i)) (mq s)) as [m|] eqn:Em; [|discriminate].
      inj. destruct (q_push _ _ _ Em) as [Q1 [Q2 [Q3 [Q4 [Q5 [Q6 Q7]]]]]]. go.
  - (* KP *) destruct (push_step (nodeK i) s) as [[s1 r]|] eqn:Ep; [|discriminate].
    destruct (push_cases _ Ep) as [m [Q1 [Q2 [Q3 [p [p' [Q5 [Q6 [Q7 ->]]]]]]]]]. clear Ep. 
    pose proof (i_tk I _ Hi Q5) as Ow. rewrite Es in Ow. simpl in Ow.
    destruct p as [|n|n|q n]; try contradiction; destruct Q7 as [Q7 Er]; subst r; simpl in Ow; inj.
    + go.
    + destruct Q7 as [q ->]. go.
    + destruct (q =? stub)%nat; inj; go.
  - (* K5 *) inj. go.
  - (* K6 *) inj. go.
  - (* KF *) inj. destruct (ref o =? 1) eqn:Er; [apply Z.eqb_eq in Er|apply Z.eqb_neq in Er]; go.
  - (* KFc *) 
    assert (Cl : In EStop (log s)) by (apply (i_cl I _ Hi); rewrite Es; apply orb_true_r).
    inj. go; right; right; exact Cl.
  - (* KG *)
    assert (Cl : In EStop (log s)) by (apply (i_cl I _ Hi); rewrite Es; apply orb_true_r).
    destruct (nsub s =? n) eqn:Er; inj; go; left; exact Cl.
Qed.

Ltac dro := match goal with H : drop_ref s ?i _ _ = Some _ |- _ => unfold drop_ref in H;
    let o := fresh "o" in let Hi := fresh "Hi" in let E := fresh "Er" in
    destruct (nth_error (ops s) i) as [o|] eqn:Hi; [|discriminate H]; inj;
    destruct (ref o =? 1) eqn:E; [apply Z.eqb_eq in E|apply Z.eqb_neq in E]; go end.
Ltac edo := match goal with H : end_op s ?i _ _ = Some _ |- _ => unfold end_op, finish in H;
    let o := fresh "o" in let Hi := fresh "Hi" in let k := fresh "k" in let E := fresh "Ek" in
    destruct (nth_error (ops s) i) as [o|] eqn:Hi; [|discriminate H];
    destruct (reset (kp o)) as [k|] eqn:E; [|discriminate H]; apply reset_cases in E; inj;
    destruct E as [[-> E]|[E ->]]; go end.
Lemma r_inv s' : r_step s = Some s' -> inv s'.
Proof.
  intros H. unfold r_step in H. destruct (rp s) eqn:Er; try discriminate.
  - (* R0 *) destruct (MpscModel.step 0%nat APop (mq s)) as [m|] eqn:Em; [|discriminate]. inj.
    destruct (q_pop _ Em) as [Q2 [Q3 [Q6 [_ Q5]]]]. go.
  - (* RPop *) destruct (MpscModel.step 0%nat ACons (mq s)) as [m|] eqn:Em; [|discriminate]. inj.
    destruct (q_cons (i_mq I) Em) as [Q6 [Q5 Q]].
    destruct Q as [[Q2 [_ [Q|[l [Q Ql]]]]]|[Q [n [Ql [Qb [Q2 _]]]]]].
    + replace (match con m with CIdle => _ | _ => RPop end) with RPop by (destruct (con m); congruence). go.
    + rewrite Q, Ql. go.
    + assert (Bd := i_bd I (or_introl Qb)). apply node_cases in Bd. destruct Bd as [k [Bk Bd]].
      rewrite Q, Ql. destruct Bd as [-> | ->]; go.
  - (* RCmd *) assert (Bd := i_bd I (or_intror Er)). apply node_cases in Bd. destruct Bd as [k [Bk Bd]].
    destruct (is_stop n) eqn:Ei.
    + destruct Bd as [-> | ->]; [rewrite stop_S in Ei; discriminate|]. rewrite op_of_K in *.
      destruct (in_dec Nat.eq_dec k (heap s)) as [Hin|Hin]; inj.
      * pose proof (proj1 (occ_in _ _) Hin). go.
      * go.
    + destruct Bd as [-> | ->]; [|rewrite stop_K in Ei; discriminate]. rewrite op_of_S in *. inj; go.
  - (* RT *) unfold drop_ref in H. destruct (nth_error (ops s) i) as [o|] eqn:Hi; [|discriminate H].
    assert (N1 : ref o <> 1).
    { pose proof (i_ok I _ Hi) as K. pose proof (bz_nn (busy (mq s) (nodeS i))); pose proof (bz_nn (busy (mq s) (nodeK i)));
      pose proof (occ_nn i (heap s)); pose proof (kT_nn (kp o)); pose proof (sM_nn (sp o)).
      pose proof (kF_nn (kp o)). pose proof (sF_nn (sp o)).
      unf. unfold ok in K. destruct (sp o); intuition lia. }
    apply Z.eqb_neq in N1. rewrite N1 in H. apply Z.eqb_neq in N1. inj. go.
  - (* RTc *) exfalso. exact (i_rtc I Er).
  - dro.
  - edo; stp_new; left; right; match goal with Hi : nth_error (ops s) _ = Some ?o |- _ => apply (i_kr I _ Hi);
      pose proof (i_kt I _ Hi) as X; rewrite Er in X; cbn [stopcmd] in X; rewrite Nat.eqb_refl in X;
      specialize (X (or_intror eq_refl)); destruct (kp o); tauto end.
  - (* RNow *) inj; go. simpl in *; inj; lia.
  - (* RF *) destruct (heap s) as [|i h] eqn:Eh.
    + inj; go.
    + destruct (time_of s i <=? t) eqn:Et; inj; go.
      simpl in *; inj. destruct (Nat.eqb_spec i j); [subst|discriminate]. inj.
      apply Z.leb_le in Et. unfold time_of in Et. rewrite E in Et. exact Et.
  - dro.
  - edo; stp_new; try contradiction;
      match goal with Hi : nth_error (ops s) ?i = Some ?o |- _ =>
      pose proof (@i_due _ I _ _ t Hi) as X; rewrite Er in X; simpl in X; rewrite Nat.eqb_refl in X;
      specialize (X eq_refl); pose proof (@i_now _ I t) as Y; rewrite Er in Y; specialize (Y eq_refl); lia end.
  - (* RW *) destruct (ready s || stopq s || (dl <=? clock s)) eqn:Ew; [|discriminate].
    destruct (stopq s) eqn:Eq; inj; go.
  - (* RC *) destruct (nsub s =? 0) eqn:En; [|discriminate]. inj; go.
    left. apply (i_sq I). rewrite Er. right; reflexivity.
  - (* RD *) destruct (heap s) as [|i h] eqn:Eh; inj; go.
  - dro.
  - edo; stp_new; right; right; apply (i_sq I); rewrite Er; right; reflexivity.
Qed.
End Step.

Lemma step_inv s a s' : inv s -> step a s = Some s' -> inv s'.
Proof.
  intros I H. destruct a; match type of H with step ?a s = _ => try solve [exact (@user_inv s I a s' Logic.I H)] end; cbn [step] in H.
  - destruct (nth_error (ops s) i) as [o|] eqn:Hi; [|discriminate]. exact (s_inv I _ Hi H).
  - destruct (nth_error (ops s) i) as [o|] eqn:Hi; [|discriminate]. exact (k_inv I _ Hi H).
  - exact (r_inv I H).
Qed.
Lemma runs_inv acts s s' : inv s -> runs acts s = Some s' -> inv s'.
Proof.
  revert s. induction acts as [|a l IH]; simpl; intros s I H; [injection H as <-; exact I|].
  destruct (step a s) as [s1|] eqn:E; [|discriminate]. exact (IH _ (step_inv _ I E) H).
Qed.
Theorem reach_inv s : reachable s -> inv s.
Proof. intros [l [c [acts H]]]. exact (runs_inv _ (init_inv l c) H). Qed.
