(** C50: async_scope::spawn_future. *)
From Coq Require Import List ZArith Bool Arith Lia.
From Verif Require Import Conc AsyncFutureModel AsyncFutureProofs AsyncFutureProofs2.
Import ListNotations.
Set Implicit Arguments.

(** * Specification vocabulary *)
(** The future [f] is the [i]-th that was spawned. *)
Definition future (s : state) (i : nat) (f : fut) : Prop := nth_error (futs s) i = Some f.
Definition happened (f : fut) (e : event) : Prop := In e (log f).
(** [e] happened, when [past] had happened. *)
Definition when_past (f : fut) (e : event) (past : list event) : Prop := exists later, log f = later ++ e :: past.
Definition delivered (f : fut) : Prop := exists o, happened f (EDeliver o).
(** Nothing the library does for this future (on any thread) is under way. *)
Definition quiescent (q : bool) (f : fut) : Prop :=
  f_step q ALibU f = None /\ f_step q ALibW f = None /\ f_step q ACon f = None /\ f_step q AScoEnd f = None.

Fixpoint deliveries (l : list event) : list outcome :=
  match l with [] => [] | EDeliver o :: r => o :: deliveries r | _ :: r => deliveries r end.
Fixpoint frees (l : list event) : nat :=
  match l with [] => 0 | EFree :: r => S (frees r) | _ :: r => frees r end.

Lemma deliveries_cnt l : length (deliveries l) = cnt isD l.
Proof. induction l as [|[] l IH]; cbn; auto. Qed.
Lemma frees_cnt l : frees l = cnt isF l.
Proof. induction l as [|[] l IH]; cbn; auto. Qed.
Lemma isX_in l : cnt isX l = 0 -> ~ In (EUaf false) l /\ ~ In ETerm l.
Proof.
  intros H. split; intros X.
  - pose proof (cnt_in isX _ _ X eq_refl). lia.
  - pose proof (cnt_in isX _ _ X eq_refl). lia.
Qed.
Lemma ordered_app l1 l2 : ordered (l1 ++ l2) -> ordered l2.
Proof. induction l1 as [|e l IH]; cbn [app ordered]; auto. tauto. Qed.

(** * The future completes at most once *)
Theorem C50_once : forall s i f, reachable s -> future s i f -> length (deliveries (log f)) <= 1.
Proof.
  intros s i f HR Hi. destruct (reach_all HR i Hi) as ([Hsh _ _ _ _] & _ & _).
  rewrite deliveries_cnt. unfold shape, live, handed in Hsh.
  destruct (up f) eqn:?; crush; try lia.
  all: repeat match goal with c : cpc |- _ => destruct c; cbn [late] in * end; lia.
Qed.

(** Only if it was started, and only after the spawned operation has completed:
    with the operation's result, or stopped if the consumer had requested stop. *)
Theorem C50_result : forall s i f o past, reachable s -> future s i f -> when_past f (EDeliver o) past ->
  In EStart past /\ exists o', In (EOp o') past /\ (o = o' \/ o = Stp /\ In EReq past).
Proof.
  intros s i f o past HR Hi [later E]. destruct (reach_all HR i Hi) as (_ & _ & [Ho _ _ _ _]).
  rewrite E in Ho. apply ordered_app in Ho. cbn [ordered] in Ho. tauto.
Qed.

(** * The shared state is released exactly once *)
Theorem C50_freed_once : forall s i f, reachable s -> future s i f -> frees (log f) <= 1.
Proof.
  intros s i f HR Hi. destruct (reach_all HR i Hi) as ([_ _ _ _ Hf] & _ & _).
  rewrite frees_cnt, Hf. destruct (dead f); cbn; lia.
Qed.

(** not before the operation has completed and the future was dropped or has completed *)
Theorem C50_freed_late : forall s i f past, reachable s -> future s i f -> when_past f EFree past ->
  (exists o, In (EOp o) past) /\ (In EDrop past \/ exists o, In (EDeliver o) past).
Proof.
  intros s i f past HR Hi [later E]. destruct (reach_all HR i Hi) as (_ & _ & [Ho _ _ _ _]).
  rewrite E in Ho. apply ordered_app in Ho. cbn [ordered] in Ho. tauto.
Qed.

Lemma op_over s i f o : reachable s -> future s i f -> happened f (EOp o) -> wp f <> WRun.
Proof.
  intros HR Hi H X. destruct (reach_all HR i Hi) as (_ & [_ Hrun _ _ _] & _).
  apply (proj1 Hrun X o H).
Qed.

Lemma quiet_cb q f : quiescent q f -> fcon f <> CbRun /\ fsco f <> CbRun.
Proof.
  intros (_ & _ & H1 & H2). cbn [f_step] in H1, H2. split; intros X; rewrite X in *; discriminate.
Qed.

Lemma c_step_some c f : fcon f <> CbRun -> c_step c f <> None.
Proof.
  intros H. destruct c; cbn [c_step]; try discriminate.
  - destruct (fcon f); cbn [reset]; try discriminate. congruence.
  - destruct (nof (touch false f) || _); [discriminate|]. destruct (preq (touch false f)); [discriminate|].
    destruct (dat (touch false f)); discriminate.
Qed.

Lemma quiet_pcs q f : quiescent q f ->
  (up f = UF \/ up f = UO \/ up f = USub \/ up f = UEnd) /\ (wp f = WRun \/ wp f = WEnd).
Proof.
  intros Q. pose proof (@quiet_cb _ _ Q) as [N1 N2]. destruct Q as (Q1 & Q2 & _ & _). cbn [f_step] in Q1, Q2.
  split.
  - unfold u_step in Q1. destruct (up f) eqn:E; auto; try discriminate; exfalso.
    + destruct (dat (touch false f)); discriminate.
    + destruct (dat (touch false f)); discriminate.
    + destruct (fcon f); cbn [reset] in Q1; try discriminate; congruence.
    + destruct (fcon f); cbn [reset] in Q1; try discriminate; congruence.
    + destruct (dat (touch false f)); discriminate.
    + pose proof (c_step_some c f N1). destruct (c_step c f) as [[[] ?]|]; try discriminate; congruence.
  - unfold w_step in Q2. destruct (wp f) eqn:E; auto; try discriminate; exfalso.
    + cbv zeta in Q2. destruct (fsco f); cbn [reset] in Q2; try congruence;
        match type of Q2 with context [if ?x then _ else _] => destruct x end; discriminate.
    + destruct b; discriminate.
    + pose proof (c_step_some c f N1). destruct (c_step c f) as [[[] ?]|]; try discriminate; congruence.
Qed.

(** * Nothing is lost: once started and once the operation has completed, the
    future has completed as soon as the library is idle *)
Theorem C50_completes : forall s i f o, reachable s -> future s i f -> quiescent (sreq s) f ->
  happened f EStart -> happened f (EOp o) -> delivered f.
Proof.
  intros s i f o HR Hi Q HS HO. pose proof (op_over o HR Hi HO) as HW. pose proof (@quiet_pcs _ _ Q) as [HU HW'].
  destruct (reach_all HR i Hi) as ([Hsh _ _ _ _] & _ & _).
  pose proof (cnt_in isS _ _ HS eq_refl) as HS'.
  assert (EW : wp f = WEnd) by tauto.
  unfold delivered, happened. apply cnt_isD0.
  unfold shape, live, handed in Hsh. rewrite EW in Hsh.
  destruct HU as [U|[U|[U|U]]]; rewrite U in Hsh; cbn in Hsh; crush; lia.
Qed.

(** and the state has been released, started or dropped *)
Theorem C50_no_leak : forall s i f o, reachable s -> future s i f -> quiescent (sreq s) f ->
  happened f (EOp o) -> happened f EStart \/ happened f EDrop -> happened f EFree.
Proof.
  intros s i f o HR Hi Q HO HD. pose proof (op_over o HR Hi HO) as HW. pose proof (@quiet_pcs _ _ Q) as [HU HW'].
  destruct (reach_all HR i Hi) as ([Hsh _ _ _ Hf] & _ & [_ _ _ Opre _]).
  assert (EW : wp f = WEnd) by tauto.
  assert (D : dead f = true).
  { unfold shape, live, handed in Hsh. rewrite EW in Hsh.
    destruct HU as [U|[U|[U|U]]]; rewrite U in Hsh, Opre; cbn in Hsh, Opre.
    - destruct HD as [HD|HD]; [pose proof (cnt_in isS _ _ HD eq_refl); crush; lia|exfalso; apply Opre; [exact I|exact HD]].
    - destruct HD as [HD|HD]; [pose proof (cnt_in isS _ _ HD eq_refl); crush; lia|exfalso; apply Opre; [exact I|exact HD]].
    - crush.
    - crush; assumption. }
  rewrite D in Hf. cbn in Hf. unfold happened. revert Hf. clear. induction (log f) as [|[] l IH]; cbn; auto; try lia.
Qed.

(** * The library always becomes idle *)
Definition crank (c : cpc) : nat := match c with C0 => 5 | C1 => 4 | C2 _ => 3 | C3 => 2 | C4 => 1 end.
Definition urank (u : upc) : nat :=
  match u with UNew => 1 | UFd => 2 | UFx => 1 | UOd => 3 | UOx => 2 | UOy => 1 | UOz => 1 | US => 6 | UC c => crank c
             | UF | UO | USub | UEnd => 0 end.
Definition wrank (w : wpc) : nat :=
  match w with W1 _ => 8 | WDel => 1 | WSub _ => 7 | WC c => crank c | WRun | WEnd => 0 end.
Definition cbrank (c : cb) : nat := match c with CbRun => 1 | _ => 0 end.
Definition rank (f : fut) : nat := urank (up f) + wrank (wp f) + cbrank (fcon f) + cbrank (fsco f).
Definition lib_act (a : act) : Prop := match a with ALibU | ALibW | ACon | AScoEnd => True | _ => False end.

Theorem C50_terminates : forall q a f f', lib_act a -> f_step q a f = Some f' -> rank f' < rank f.
Proof.
  intros q a f f' HL H. unfold rank.
  destruct f as [u w st nf da su fc fs ss pq de lg].
  unfold f_step, u_step, w_step, c_step, free, touch, reset in H; cbv zeta in H; pr.
  destruct a; try contradiction.
  all: pr; brk H; try discriminate H; injection H as <-; subst; pr; cbn [urank wrank crank cbrank]; try lia.
  all: destruct u; cbn [urank]; lia.
Qed.

(** * No std::terminate *)
Theorem C50_no_terminate : forall s i f, reachable s -> future s i f -> ~ happened f ETerm.
Proof. intros s i f HR Hi. destruct (reach_all HR i Hi) as ([_ _ _ Hx _] & _). apply (isX_in _ Hx). Qed.

(** * The released state is not accessed, except by the consumer's stop callback,
    and then only when an operation that was never started was dropped *)
Theorem C50_uaf_partial : forall s i f c, reachable s -> future s i f -> happened f (EUaf c) ->
  c = true /\ happened f EDrop /\ happened f EReq /\ ~ happened f EStart.
Proof.
  intros s i f c HR Hi H. destruct (reach_all HR i Hi) as ([_ _ _ Hx _] & _ & [Ho _ _ _ _]).
  destruct c; [|exfalso; exact (proj1 (isX_in _ Hx) H)].
  split; [reflexivity|]. unfold happened in *.
  apply in_split in H. destruct H as (l1 & l2 & E). pose proof Ho as Ho'. rewrite E in Ho. apply ordered_app in Ho. cbn [ordered] in Ho.
  destruct Ho as [[D R] _].
  assert (D' : In EDrop (log f)) by (rewrite E; apply in_or_app; right; right; assumption).
  split; [assumption|]. split; [rewrite E; apply in_or_app; right; right; assumption|].
  clear E D R Hx. revert Ho' D'. induction (log f) as [|e l IH]; [auto|]. cbn [In ordered]. intros [He Hl] [D|D] [S|S]; subst.
  - discriminate.
  - tauto.
  - tauto.
  - apply IH; assumption.
Qed.

(** ... which does happen: the operation is dropped before the spawned operation
    has completed; this completes and deletes the state; then the consumer's stop
    callback uses the stop source in it. *)
Theorem C50_uaf_refuted : exists s i f, reachable s /\ future s i f /\ happened f (EUaf true).
Proof.
  destruct (runs [ASpawn; AFut 0 ALibU; AFut 0 AConnect; AFut 0 ADropO; AFut 0 ALibU;
                  AFut 0 (AOp (Val 1)); AFut 0 ALibW; AFut 0 ALibW; AFut 0 AReq; AFut 0 ACon] init) as [s|] eqn:E;
    [|vm_compute in E; discriminate].
  exists s, 0. pose proof E as E0. vm_compute in E. injection E as <-.
  eexists. split; [eexists; exact E0|]. split; [reflexivity|]. unfold happened. cbn. auto.
Qed.

(** * Stop requests: the operation sees the scope's only *)
Theorem C50_scope_stop : forall acts s, runs acts init = Some s -> (op_stop s = true <-> In AScopeStop acts).
Proof.
  assert (G : forall acts s0 s, runs acts s0 = Some s -> (sreq s = true <-> sreq s0 = true \/ In AScopeStop acts)).
  { induction acts as [|a l IH]; intros s0 s H.
    - injection H as <-. cbn. tauto.
    - cbn [runs] in H. destruct (step a s0) as [s1|] eqn:E; [|discriminate]. rewrite (IH _ _ H). cbn [In].
      destruct a as [| |j a]; cbn [step] in E.
      + injection E as <-. cbn [sreq]. intuition discriminate.
      + destruct (sreq s0) eqn:Q; [discriminate|]. injection E as <-. cbn [sreq]. intuition.
      + destruct (nth_error (futs s0) j) as [f|]; [|discriminate]. destruct (f_step (sreq s0) a f) as [f'|]; [|discriminate].
        injection E as <-. cbn [sreq]. intuition discriminate. }
  intros acts s H. unfold op_stop. rewrite (G _ _ _ H). cbn. intuition discriminate.
Qed.

(** The consumer requests stop of a started future and the library is idle: the
    stop token of the spawned operation has not been stopped. *)
Theorem C50_stop_refuted : exists s i f, reachable s /\ future s i f /\ quiescent (sreq s) f /\
  happened f EStart /\ happened f EReq /\ (forall o, ~ happened f (EOp o)) /\ op_stop s = false.
Proof.
  destruct (runs [ASpawn; AFut 0 ALibU; AFut 0 AConnect; AFut 0 AStart; AFut 0 ALibU;
                  AFut 0 AReq; AFut 0 ACon] init) as [s|] eqn:E;
    [|vm_compute in E; discriminate].
  exists s, 0. pose proof E as E0. vm_compute in E. injection E as <-.
  eexists. split; [eexists; exact E0|]. split; [reflexivity|]. split; [repeat split|].
  unfold happened. cbn. split; [auto|]. split; [auto|]. split; [|reflexivity]. intros o [H|[H|[]]]; discriminate.
Qed.

(** Examples: a value that arrives after start; a cancelled consumer gets stopped,
    but only once the operation has completed; a future that is dropped. *)
Example C50_value :
  option_map (fun s => map log (futs s))
    (runs [ASpawn; AFut 0 ALibU; AFut 0 AConnect; AFut 0 AStart; AFut 0 ALibU; AFut 0 (AOp (Val 7)); AFut 0 ALibW; AFut 0 ALibW;
           AFut 0 ALibW; AFut 0 ALibW; AFut 0 ALibW; AFut 0 ALibW; AFut 0 ALibW] init)
  = Some [[EFree; EDeliver (Val 7); EOp (Val 7); EStart]].
Proof. vm_compute. reflexivity. Qed.
Example C50_cancelled :
  option_map (fun s => map log (futs s))
    (runs [ASpawn; AFut 0 ALibU; AFut 0 AConnect; AFut 0 AStart; AFut 0 ALibU; AFut 0 AReq; AFut 0 ACon;
           AFut 0 (AOp (Val 7)); AFut 0 ALibW; AFut 0 ALibW;
           AFut 0 ALibW; AFut 0 ALibW; AFut 0 ALibW; AFut 0 ALibW; AFut 0 ALibW] init)
  = Some [[EFree; EDeliver Stp; EOp (Val 7); EReq; EStart]].
Proof. vm_compute. reflexivity. Qed.
Example C50_dropped :
  option_map (fun s => map log (futs s))
    (runs [ASpawn; ASpawn; AFut 1 ALibU; AFut 1 ADropF; AFut 1 ALibU; AScopeStop; AFut 1 ASco; AFut 1 AScoEnd;
           AFut 1 (AOp Stp); AFut 1 ALibW; AFut 1 ALibW] init)
  = Some [[]; [EFree; EOp Stp; EDrop]].
Proof. vm_compute. reflexivity. Qed.
