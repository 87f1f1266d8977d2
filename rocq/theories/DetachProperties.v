(** C61: detached work is released exactly once. *)
From Coq Require Import List Bool Arith NArith Lia FSets.FMapPositive.
From Verif Require Import Conc DetachModel.
Import ListNotations.
Set Implicit Arguments.

(** ** Specification *)
Definition reachable s := exists l, runs l init = Some s.
Definition ev_eq (x y : event) : {x = y} + {x <> y}. Proof. repeat decide equality. Defined.
(** how often an event has happened *)
Definition times (e : event) (l : list event) : nat := count_occ ev_eq l e.
(** the sender of operation j completes only after its submit() has returned *)
Definition late (j : nat) (l : list event) := forall l1 l2, l = l1 ++ Ev j ECompl :: l2 -> In (Ev j (EMk OOp)) l2.
Definition keeps_result k := match k with KSubmit | KNothrow => true | _ => false end.
Definition proviso j k l := keeps_result k = true -> late j l.
(** nothing more can happen to operation j *)
Definition finished s j := forall a, step s (AOp j a) = None.

(** ** The states of one operation *)
Definition n_kind k := match k with KConnect => 0 | KVoid => 1 | KSubmit => 2 | KNothrow => 3 | KSpawn => 4 end%N.
Definition n_cp c := match c with CAlloc => 0 | CEnv => 1 | CConn => 2 | CAssoc => 3 | CRun => 4 | CSub => 5 | CWait => 6 | CRet => 7 | CDelOp => 8 | CDelEnv => 9 | CDelMem => 10 | CDone => 11 | CThrown => 12 end%N.
Definition n_kp c := match c with KNone => 0 | KRunning => 1 | KMove => 2 | KDelOp => 3 | KDelEnv => 4 | KDelMem => 5 | KDis => 6 | KEnd => 7 end%N.
Definition n_l c := match c with LNo => 0 | LLive => 1 | LDead => 2 end%N.
Definition n_a c := match c with ANo => 0 | AHeld => 1 | AGone => 2 end%N.
Definition code (s : op) : positive :=
  N.succ_pos (fold_left (fun a x => 16 * a + x)%N [n_kind (kd s); n_cp (cp s); n_kp (kp s); n_l (mem s); n_l (env s); n_l (oo s); (if hasv s then 1 else 0)%N; n_a (asc s)] 0%N).
Definition op_eq (x y : op) : {x = y} + {x <> y}. Proof. repeat decide equality. Defined.
Definition all_a := [OCall true; OCall false; OAssoc true; OAssoc false; OCompl].
Lemma in_a a : In a all_a. Proof. destruct a as [[]|[]|]; cbn; tauto. Qed.
(** the step respects the proviso *)
Definition okstep (s : op) (a : oact) : bool :=
  match a with
  | OCompl => match kp s with KRunning => negb (keeps_result (kd s)) || match oo s with LNo => false | _ => true end | _ => true end
  | _ => true
  end.
Definition gstep s a := if okstep s a then ostep s a else None.
Fixpoint explore (fuel : nat) (todo : list op) (m : PositiveMap.t op) : PositiveMap.t op :=
  match fuel with
  | 0 => m
  | S n =>
      match todo with
      | [] => m
      | x :: todo =>
          let ys := flat_map (fun a => match gstep x a with Some (y, _) => [y] | None => [] end) all_a in
          let '(todo, m) := fold_left (fun '(t, m) y => match PositiveMap.find (code y) m with Some _ => (t, m) | None => (y :: t, PositiveMap.add (code y) y m) end) ys (todo, m) in
          explore n todo m
      end
  end.
Definition news := map new [KConnect; KVoid; KSubmit; KNothrow; KSpawn].
Definition states := explore 2000 news (fold_left (fun m x => PositiveMap.add (code x) x m) news (PositiveMap.empty op)).
Definition isin (x : op) : bool := match PositiveMap.find (code x) states with Some y => if op_eq x y then true else false | None => false end.

(** what a state says about the past *)
Definition b2n (b : bool) := if b then 1 else 0.
Definition made l := match l with LNo => false | _ => true end.
Definition gone l := match l with LDead => true | _ => false end.
Definition flag (e : oev) (s : op) : bool :=
  match e with
  | EMk OMem => made (mem s) | EMk OEnv => made (env s) | EMk OOp => made (oo s)
  | EDl OMem => gone (mem s) | EDl OEnv => gone (env s) | EDl OOp => gone (oo s)
  | ECompl => match kp s with KNone | KRunning => false | _ => negb (match kd s, asc s with KSpawn, ANo => true | _, _ => false end) end
  | ERet => match cp s with CDone => true | _ => false end
  | EThrow => match cp s with CThrown => true | _ => false end
  | EAssoc => match asc s with ANo => false | _ => true end
  | EDis => match asc s with AGone => true | _ => false end
  | EBad => false
  | EStart => false
  end.
Definition oev_eq (x y : oev) : {x = y} + {x <> y}. Proof. repeat decide equality. Defined.
Definition tracked := [EMk OMem; EMk OEnv; EMk OOp; EDl OMem; EDl OEnv; EDl OOp; ECompl; ERet; EThrow; EAssoc; EDis; EBad].
Definition agrees x y es := forallb (fun e => count_occ oev_eq es e + b2n (flag e x) =? b2n (flag e y)) tracked.
Definition anygone x := gone (mem x) || gone (env x) || gone (oo x).
Definition has e (es : list oev) : bool := existsb (fun x => if oev_eq x e then true else false) es.
(** nothing has been destroyed when the sender completes; the association changes with its events; the kind does not change *)
Definition trans x y es := agrees x y es
  && (if has ECompl es then negb (anygone x) && (length es =? 1) else true)
  && (if op_eq (new (kd y)) (new (kd x)) then true else false)
  && (if has EAssoc es then negb (has EDis es) && match asc x, asc y with ANo, AHeld => true | _, _ => false end
      else if has EDis es then match asc x, asc y with AHeld, AGone => true | _, _ => false end
      else match asc x, asc y with ANo, ANo | AHeld, AHeld | AGone, AGone => true | _, _ => false end).
Definition all_trans : bool :=
  forallb (fun kx => let x := snd kx in forallb (fun a => match gstep x a with Some (y, es) => isin y && trans x y es | None => true end) all_a) (PositiveMap.elements states).
Lemma all_trans_ok : all_trans = true. Proof. vm_compute. reflexivity. Qed.
Lemma news_in k : isin (new k) = true. Proof. destruct k; vm_compute; reflexivity. Qed.
Lemma isin_in x : isin x = true -> exists k, In (k, x) (PositiveMap.elements states).
Proof.
  unfold isin. destruct (PositiveMap.find (code x) states) as [y|] eqn:E; [|discriminate]. destruct (op_eq x y) as [->|]; [|discriminate]. intros _.
  exists (code y). apply PositiveMap.elements_correct. exact E.
Qed.
Lemma gstep_ok x a y es : isin x = true -> gstep x a = Some (y, es) -> isin y = true /\ trans x y es = true.
Proof.
  intros I H. destruct (isin_in _ I) as [k K]. assert (A := all_trans_ok). unfold all_trans in A. rewrite forallb_forall in A. specialize (A _ K). cbn beta zeta in A.
  rewrite forallb_forall in A. specialize (A a (in_a a)). unfold snd in A. rewrite H in A. apply andb_prop in A. exact A.
Qed.
Definition holds (P : op -> bool) : bool := forallb (fun kx => P (snd kx)) (PositiveMap.elements states).
Lemma holds_in P x : holds P = true -> isin x = true -> P x = true.
Proof. intros H X. destruct (isin_in _ X) as [k K]. unfold holds in H. rewrite forallb_forall in H. apply (H _ K). Qed.

(** ** Many operations *)
Lemma times_evs_same : forall j e es l, times (Ev j e) (evs j es l) = count_occ oev_eq es e + times (Ev j e) l.
Proof.
  intros j e es l. unfold evs, times. rewrite count_occ_app. f_equal.
  assert (R : forall (x : list event), count_occ ev_eq (rev x) (Ev j e) = count_occ ev_eq x (Ev j e)).
  { induction x as [|y x IH]; [reflexivity|]. cbn [rev]. rewrite count_occ_app, IH. cbn. destruct (ev_eq y (Ev j e)); lia. }
  rewrite R. induction es as [|x es IH]; [reflexivity|]. cbn [map count_occ].
  destruct (ev_eq (Ev j x) (Ev j e)) as [A|A], (oev_eq x e) as [B|B]; try congruence; rewrite IH; reflexivity.
Qed.
Lemma in_evs : forall x j es l, In x (evs j es l) <-> (exists e, x = Ev j e /\ In e es) \/ In x l.
Proof.
  intros x j es l. unfold evs. rewrite in_app_iff, <- in_rev, in_map_iff. split; intros [H|H]; auto.
  - destruct H as [e [A B]]. left. exists e; auto.
  - destruct H as [e [A B]]. left. exists e; auto.
Qed.
Lemma times_evs_other : forall i j e es l, i <> j -> times (Ev i e) (evs j es l) = times (Ev i e) l.
Proof.
  intros i j e es l N. unfold evs, times. rewrite count_occ_app.
  assert (Z : count_occ ev_eq (rev (map (Ev j) es)) (Ev i e) = 0); [|lia].
  apply count_occ_not_In. rewrite <- in_rev, in_map_iff. intros [x [A _]]. congruence.
Qed.
Lemma times_in : forall e l, In e l <-> 0 < times e l.
Proof. intros e l. unfold times. rewrite (count_occ_In ev_eq). lia. Qed.
Lemma late_app : forall j l' l, late j (l' ++ l) -> late j l.
Proof. intros j l' l H l1 l2 E. apply (H (l' ++ l1) l2). rewrite E, app_assoc. reflexivity. Qed.
Lemma proviso_evs : forall i k j es l, proviso i k (evs j es l) -> proviso i k l.
Proof. intros i k j es l H K. eapply late_app. apply (H K). Qed.

Definition nodl j (l : list event) := forall o, ~ In (Ev j (EDl o)) l.
Definition opinv (j : nat) (o : op) (l : list event) : Prop :=
  proviso j (kd o) l ->
  isin o = true /\ (forall e, In e tracked -> times (Ev j e) l = b2n (flag e o)) /\
  (forall l1 l2, l = l1 ++ Ev j ECompl :: l2 -> nodl j l2).
Definition held (o : option op) := match o with Some o => match asc o with AHeld => true | _ => false end | None => false end.
Lemma kd_ostep o a o' es : ostep o a = Some (o', es) -> kd o' = kd o.
Proof.
  destruct o as [k c p m e q h a0]. destruct a as [[]|[]|]; cbn; destruct c; try discriminate; cbn; try (intros H; injection H as <- <-; reflexivity);
    destruct k, p; cbn; try discriminate; try (intros H; injection H as <- <-; reflexivity); try (destruct h; cbn; intros H; injection H as <- <-; reflexivity);
    destruct a0; cbn; intros H; injection H as <- <-; reflexivity.
Qed.
Definition assocs es := existsb (fun e => match e with EAssoc => true | _ => false end) es.
Definition disses es := existsb (fun e => match e with EDis => true | _ => false end) es.
Lemma touch_no o : assocs (touch o) = false /\ disses (touch o) = false. Proof. unfold touch. destruct (mem o); auto. Qed.
Lemma other_ostep o a o' es : kd o <> KSpawn -> asc o = ANo -> cp o <> CAssoc -> kp o <> KDis -> ostep o a = Some (o', es) -> asc o' = ANo /\ cp o' <> CAssoc /\ kp o' <> KDis /\ assocs es = false /\ disses es = false.
Proof.
  destruct o as [k c p m e q h a0]. cbn [kd asc cp kp]. intros K -> C D H.
  destruct a as [[]|b|]; [| |destruct c; try discriminate; congruence|]; cbn in H.
  - destruct c, k, p; cbn in H; try discriminate; try congruence; injection H as <- <-; destruct m; cbn; (split; [|split; [|split; [|split]]]); auto; discriminate.
  - destruct c, k; cbn in H; try discriminate; try congruence; try (destruct p; try discriminate); injection H as <- <-; destruct m, e, q; cbn; (split; [|split; [|split; [|split]]]); auto; discriminate.
  - destruct p, k; cbn in H; try discriminate; try congruence; try (destruct h); injection H as <- <-; destruct m, e, q; cbn; (split; [|split; [|split; [|split]]]); auto; discriminate.
Qed.
Lemma has_assocs es : assocs es = has EAssoc es.
Proof. unfold assocs, has. induction es as [|e es IH]; cbn; auto. rewrite IH. destruct e; reflexivity. Qed.
Lemma has_disses es : disses es = has EDis es.
Proof. unfold disses, has. induction es as [|e es IH]; cbn; auto. rewrite IH. destruct e; reflexivity. Qed.
Lemma has_in e es : has e es = true <-> In e es.
Proof.
  unfold has. rewrite existsb_exists. split.
  - intros [x [A B]]. destruct (oev_eq x e); [subst; auto|discriminate].
  - intros H. exists e. split; auto. destruct (oev_eq e e); congruence.
Qed.
(** what is known of the association of an operation and of its log *)
Definition ascinv (j : nat) (o : op) (l : list event) : Prop := kd o <> KSpawn -> asc o = ANo /\ cp o <> CAssoc /\ kp o <> KDis /\ ~ In (Ev j EAssoc) l.
Record inv (s : state) : Prop := {
  v_none : forall j, ops s j = None -> forall e, ~ In (Ev j e) (log s);
  v_op : forall j o, ops s j = Some o -> opinv j o (log s);
  v_asc : forall j o, ops s j = Some o -> ascinv j o (log s);
  v_count : exists L, NoDup L /\ length L = count s /\ forall j, In j L <-> held (ops s j) = true;
  v_join : forall l1 l2 j, log s = l1 ++ EJoin :: l2 -> In (Ev j EAssoc) l2 -> In (Ev j (EDl OMem)) l2
}.
Lemma spawn_proviso j o l : kd o = KSpawn -> proviso j (kd o) l.
Proof. intros E K. rewrite E in K. discriminate. Qed.

Lemma opinv_step j o a o' es l : opinv j o l -> ostep o a = Some (o', es) -> opinv j o' (evs j es l).
Proof.
  intros I H P. pose proof (kd_ostep _ _ H) as Kd. rewrite Kd in P.
  destruct (I (@proviso_evs _ _ _ _ _ P)) as (A & B & C).
  assert (G : gstep o a = Some (o', es)).
  { unfold gstep. destruct (okstep o a) eqn:E; auto. exfalso. destruct a as [b|b|]; try discriminate. cbn in E. destruct (kp o) eqn:Ek; try discriminate.
    apply orb_false_iff in E. destruct E as [E1 E2]. apply negb_false_iff in E1. cbn in H. rewrite Ek in H. injection H as <- <-.
    assert (X : In (Ev j (EMk OOp)) l) by (apply (P E1 [] l); reflexivity). apply times_in in X. rewrite (B (EMk OOp)) in X by (cbn; tauto). cbn in X. destruct (oo o); cbn in X; [lia|discriminate..]. }
  destruct (gstep_ok _ _ A G) as [A' T]. unfold trans in T. apply andb_prop in T. destruct T as [T _]. apply andb_prop in T. destruct T as [T _]. apply andb_prop in T. destruct T as [T1 T2].
  split; [exact A'|]. split.
  - intros e E. rewrite times_evs_same, (B e E). unfold agrees in T1. rewrite forallb_forall in T1. specialize (T1 e E). apply Nat.eqb_eq in T1. exact T1.
  - destruct (has ECompl es) eqn:Hc.
    + apply andb_prop in T2. destruct T2 as [T2 T3]. apply Nat.eqb_eq in T3. destruct es as [|e [|]]; try discriminate T3. apply has_in in Hc. destruct Hc as [->|[]].
      assert (N : nodl j l). { intros x X. apply times_in in X. rewrite (B (EDl x)) in X by (destruct x; cbn; tauto). unfold anygone in T2. apply negb_true_iff in T2. apply orb_false_iff in T2. destruct T2 as [T2 T4]. apply orb_false_iff in T2.
        destruct T2 as [T2 T5]. destruct x; cbn in X; rewrite ?T2, ?T4, ?T5 in X; cbn in X; lia. }
      intros [|x l1] l2 E; cbn in E; inversion E; subst; auto. eapply C; eauto.
    + intros l1 l2 E.
      assert (Q : exists l3, l = l3 ++ Ev j ECompl :: l2).
      { unfold evs in E. assert (NI : ~ In (Ev j ECompl) (rev (map (Ev j) es))).
        { rewrite <- in_rev, in_map_iff. intros [x [X1 X2]]. injection X1 as ->. apply has_in in X2. congruence. }
        revert l1 E NI. generalize (rev (map (Ev j) es)). intros p. induction p as [|x p IH]; intros l1 E NI.
        - exists l1. exact E.
        - destruct l1 as [|y l1]; cbn in E; injection E as E1 E2; [subst; elim NI; left; reflexivity|]. apply (IH l1 E2). intros X. apply NI. right; auto. }
      destruct Q as [l3 Q]. eapply C; eauto.
Qed.
Lemma opinv_frame i o j es l : i <> j -> opinv i o l -> opinv i o (evs j es l).
Proof.
  intros N I P. destruct (I (@proviso_evs _ _ _ _ _ P)) as (A & B & C). split; [exact A|]. split.
  - intros e E. rewrite times_evs_other by auto. auto.
  - intros l1 l2 E.
    assert (Q : exists l3, l = l3 ++ Ev i ECompl :: l2 \/ exists l4, l2 = l4 ++ l /\ forall x, In x l4 -> exists e, x = Ev j e).
    { unfold evs in E. assert (NI : forall x, In x (rev (map (Ev j) es)) -> exists e, x = Ev j e).
      { intros x. rewrite <- in_rev, in_map_iff. intros [e [X1 X2]]. eauto. }
      revert l1 E NI. generalize (rev (map (Ev j) es)). intros p. induction p as [|x p IH]; intros l1 E NI.
      - exists l1. left. exact E.
      - destruct l1 as [|y l1]; cbn in E; injection E as E1 E2.
        + destruct (NI x (or_introl eq_refl)) as [e X]. congruence.
        + apply (IH l1 E2). intros z Z. apply NI. right; auto. }
    destruct Q as [l3 [Q|[l4 [Q1 Q2]]]]; [eapply C; eauto|]. exfalso. clear -E N Q1 Q2.
    assert (L : length (evs j es l) = length (l1 ++ Ev i ECompl :: l2)) by congruence.
    unfold evs in *. subst l2. rewrite !app_length in L. cbn in L. rewrite app_length in L.
    (* the occurrence lies in the prefix, which has only events of j *)
    assert (F : forall p q, p ++ l = q ++ Ev i ECompl :: l4 ++ l -> (forall x, In x p -> exists e, x = Ev j e) -> False).
    { intros p q E0 H. assert (E1 : p = q ++ Ev i ECompl :: l4).
      { apply (app_inv_tail l). rewrite E0, <- app_assoc. reflexivity. }
      destruct (H (Ev i ECompl)) as [e X]; [rewrite E1; apply in_elt | congruence]. }
    apply (F _ _ E). intros x. rewrite <- in_rev, in_map_iff. intros [e [X1 X2]]. eauto.
Qed.
Lemma inv_init : inv init.
Proof.
  constructor; cbn; try discriminate; auto.
  - exists []. split; [constructor|]. split; auto. intros j. cbn. split; [tauto|discriminate].
  - intros [|]; discriminate.
Qed.
Lemma asc_trans x y es : trans x y es = true ->
  if assocs es then disses es = false /\ asc x = ANo /\ asc y = AHeld else if disses es then asc x = AHeld /\ asc y = AGone else asc x = asc y.
Proof.
  intros T. unfold trans in T. apply andb_prop in T. destruct T as [_ T]. rewrite <- has_assocs, <- has_disses in T.
  destruct (assocs es), (disses es), (asc x), (asc y); cbn in T; try discriminate; auto.
Qed.
(** the step of an operation of kind KSpawn stays among the explored ones *)
Lemma spawn_trans j o a o' es l : kd o = KSpawn -> opinv j o l -> ostep o a = Some (o', es) -> isin o = true /\ trans o o' es = true.
Proof.
  intros K I H. destruct (I (@spawn_proviso j o l K)) as (A & _ & _). split; auto.
  assert (G : gstep o a = Some (o', es)). { unfold gstep. destruct a; auto. unfold okstep. rewrite K. destruct (kp o); auto. }
  apply (gstep_ok _ _ A G).
Qed.
Lemma join_evs : forall l1 l2 j es l, evs j es l = l1 ++ EJoin :: l2 -> exists l3, l = l3 ++ EJoin :: l2.
Proof.
  intros l1 l2 j es l E. unfold evs in E.
  assert (NI : forall x, In x (rev (map (Ev j) es)) -> x <> EJoin). { intros x. rewrite <- in_rev, in_map_iff. intros [e [X1 X2]]. congruence. }
  revert l1 E NI. generalize (rev (map (Ev j) es)). intros p. induction p as [|x p IH]; intros l1 E NI.
  - exists l1. exact E.
  - destruct l1 as [|y l1]; cbn in E; injection E as E1 E2; [elim (NI x (or_introl eq_refl)); auto|]. apply (IH l1 E2). intros z Z. apply NI. right; auto.
Qed.
Lemma inv_step : forall s a s', inv s -> step s a = Some s' -> inv s'.
Proof.
  intros s a s' [N O A [L [ND [LL LH]]] J] H. destruct a as [j k|j a| |]; cbn in H.
  - destruct (ops s j) eqn:E; [discriminate|]. injection H as <-. constructor; cbn; auto.
    + intros i Hi. destruct (Nat.eq_dec i j) as [->|D]; [rewrite fset_same in Hi; discriminate|]. rewrite (@fset_other _ _ _ _ _ D) in Hi. auto.
    + intros i o Hi. destruct (Nat.eq_dec i j) as [->|D]; [|rewrite (@fset_other _ _ _ _ _ D) in Hi; auto]. rewrite fset_same in Hi. injection Hi as <-.
      intros _. split; [apply news_in|]. split.
      * intros e He. assert (Z : times (Ev j e) (log s) = 0). { destruct (times (Ev j e) (log s)) eqn:T; auto. elim (N j E e). apply times_in. lia. }
        rewrite Z. cbn in He. repeat (destruct He as [<-|He]; [reflexivity|]). destruct He.
      * intros l1 l2 X. elim (N j E ECompl). rewrite X. apply in_elt.
    + intros i o Hi. destruct (Nat.eq_dec i j) as [->|D]; [|rewrite (@fset_other _ _ _ _ _ D) in Hi; auto]. rewrite fset_same in Hi. injection Hi as <-.
      intros _. cbn. repeat split; try discriminate. apply N; auto.
    + exists L. repeat split; auto.
      * intros X. apply LH in X. destruct (Nat.eq_dec j0 j) as [->|D]; [rewrite E in X; discriminate | rewrite (@fset_other _ _ _ _ _ D); auto].
      * intros X. apply LH. destruct (Nat.eq_dec j0 j) as [->|D]; [rewrite fset_same in X; discriminate | rewrite (@fset_other _ _ _ _ _ D) in X; auto].
  - destruct (ops s j) as [o|] eqn:E; [|discriminate]. destruct (match a with OAssoc b => eqb b (negb (closed s)) | _ => true end); [|discriminate].
    destruct (ostep o a) as [[o' es]|] eqn:St; [|discriminate]. injection H as <-. fold (assocs es) (disses es).
    assert (SI : forall e, In e es -> In (Ev j e) (evs j es (log s))) by (intros e X; apply in_evs; left; eauto).
    assert (AT : (kd o <> KSpawn -> asc o' = ANo /\ cp o' <> CAssoc /\ kp o' <> KDis /\ assocs es = false /\ disses es = false) ).
    { intros K. destruct (A j o E K) as (A1 & A2 & A3 & A4). eapply other_ostep; eauto. }
    assert (AS : if assocs es then disses es = false /\ asc o = ANo /\ asc o' = AHeld else if disses es then asc o = AHeld /\ asc o' = AGone else asc o = asc o').
    { destruct (kd o) eqn:K; try (destruct AT as (T1 & T2 & T3 & T4 & T5); [discriminate|]; rewrite T4, T5, T1; apply A with (1 := E); rewrite K; discriminate).
      apply asc_trans. apply (@spawn_trans j o a o' es (log s) K (O _ _ E) St). }
    constructor; cbn.
    + intros i Hi e X. destruct (Nat.eq_dec i j) as [->|D]; [rewrite fset_same in Hi; discriminate|]. rewrite (@fset_other _ _ _ _ _ D) in Hi.
      apply in_evs in X. destruct X as [[e' [X _]]|X]; [congruence|]. eapply N; eauto.
    + intros i x Hi. destruct (Nat.eq_dec i j) as [->|D].
      * rewrite fset_same in Hi. injection Hi as <-. eapply opinv_step; eauto.
      * rewrite (@fset_other _ _ _ _ _ D) in Hi. apply opinv_frame; auto.
    + intros i x Hi. destruct (Nat.eq_dec i j) as [->|D].
      * rewrite fset_same in Hi. injection Hi as <-. intros K. rewrite (kd_ostep _ _ St) in K. destruct (AT K) as (T1 & T2 & T3 & T4 & T5). repeat split; auto.
        intros X. apply in_evs in X. destruct X as [[e' [X Y]]|X].
        { injection X as <-. apply has_in in Y. rewrite <- has_assocs in Y. congruence. }
        apply (A j o E K); auto.
      * rewrite (@fset_other _ _ _ _ _ D) in Hi. intros K. destruct (A i x Hi K) as (A1 & A2 & A3 & A4). repeat split; auto.
        intros X. apply in_evs in X. destruct X as [[e' [X Y]]|X]; [congruence|auto].
    + destruct (assocs es).
      * destruct AS as (_ & S1 & S2). exists (j :: L). split; [|split].
        { constructor; auto. intros X. apply LH in X. rewrite E in X. cbn in X. rewrite S1 in X. discriminate. }
        { cbn. rewrite LL. auto. }
        { intros i. destruct (Nat.eq_dec i j) as [->|D]; [rewrite fset_same; cbn; rewrite S2; split; auto|]. rewrite (@fset_other _ _ _ _ _ D), <- LH. cbn. split; [intros [X|X]; [congruence|auto] | auto]. }
      * destruct (disses es).
        { destruct AS as (S1 & S2). assert (IL : In j L) by (apply LH; rewrite E; cbn; rewrite S1; auto).
          destruct (in_split _ _ IL) as (L1 & L2 & EL). subst L. exists (L1 ++ L2). split; [|split].
          - eapply NoDup_remove_1; eauto.
          - rewrite app_length in *. cbn in LL. lia.
          - intros i. apply NoDup_remove_2 in ND. destruct (Nat.eq_dec i j) as [->|D].
            + rewrite fset_same. cbn. rewrite S2. split; [intros X; elim ND; auto | discriminate].
            + rewrite (@fset_other _ _ _ _ _ D), <- LH. rewrite !in_app_iff. cbn. intuition congruence. }
        { exists L. split; auto. split; auto. intros i. rewrite LH. destruct (Nat.eq_dec i j) as [->|D]; [rewrite fset_same, E; cbn; rewrite AS; tauto | rewrite (@fset_other _ _ _ _ _ D); tauto]. }
    + intros l1 l2 i X. destruct (@join_evs _ _ _ _ _ X) as [l3 Y]. eapply J; eauto.
  - injection H as <-. constructor; cbn; auto. exists L; auto.
  - destruct (closed s); [|discriminate]. cbn in H. destruct (Nat.eqb_spec (count s) 0) as [CZ|CZ]; [|discriminate]. destruct (joined s); [discriminate|]. injection H as <-.
    constructor; cbn.
    + intros j Hj e [X|X]; [discriminate|]. eapply N; eauto.
    + intros j o Hj P. assert (P' : proviso j (kd o) (log s)) by (intros K; apply (late_app [EJoin]); apply (P K)).
      destruct (O j o Hj P') as (B & C & D). split; auto. split.
      * intros e He. unfold times. cbn. destruct (ev_eq EJoin (Ev j e)); [discriminate|]. apply C; auto.
      * intros [|x l1] l2 X; inversion X; subst. eauto.
    + intros j o Hj K. destruct (A j o Hj K) as (A1 & A2 & A3 & A4). repeat split; auto. intros [X|X]; [discriminate|auto].
    + exists L; auto.
    + intros [|x l1] l2 j X Y; inversion X; subst; [|eapply J; eauto]. clear X.
      destruct (ops s j) as [o|] eqn:E; [|elim (N j E _ Y)].
      assert (K : kd o = KSpawn). { destruct (kd o) eqn:K; auto; destruct (A j o E) as (_ & _ & _ & A4); try (rewrite K; discriminate); elim (A4 Y). }
      destruct (O j o E (@spawn_proviso j o _ K)) as (B & C & _).
      assert (NH : held (Some o) = false). { destruct (held (Some o)) eqn:Hh; auto. rewrite <- E in Hh. apply LH in Hh. destruct L; [destruct Hh|cbn in LL; lia]. }
      apply times_in in Y. rewrite (C EAssoc) in Y by (cbn; tauto). apply times_in. rewrite (C (EDl OMem)) by (cbn; tauto).
      assert (Z := @holds_in (fun x => implb (flag EAssoc x) (held (Some x) || flag (EDl OMem) x)) o ltac:(vm_compute; reflexivity) B). cbv beta in Z.
      destruct (flag EAssoc o); [|cbn in Y; lia]. rewrite NH in Z. cbn [implb orb] in Z. rewrite Z. cbn. lia.
Qed.
Lemma reach_inv : forall s, reachable s -> inv s.
Proof.
  intros s [l H]. revert H. assert (G : forall l s s', inv s -> runs l s = Some s' -> inv s'); [|apply G; apply inv_init].
  clear. induction l as [|a l IH]; cbn; intros s s' I H; [injection H as <-; auto|]. destruct (step s a) as [s1|] eqn:E; [|discriminate]. eapply IH; [|eauto]. eapply inv_step; eauto.
Qed.

(** ** C61 *)
(** Nothing forbidden happens: no use of memory that has been freed, no object destroyed twice or without having been made -- provided that a sender whose submit() returns an object to be
    kept completes only after submit() has returned. *)
Theorem detached_safe_partial : forall s, reachable s -> forall j o, ops s j = Some o -> proviso j (kd o) (log s) -> ~ In (Ev j EBad) (log s).
Proof.
  intros s R j o E P X. destruct (@v_op _ (reach_inv R) j o E P) as (_ & B & _). apply times_in in X. rewrite (B EBad) in X by (cbn; tauto). cbn in X. lia.
Qed.
(** The memory and each object are made and destroyed at most once, and when the operation is over, as often destroyed as made: nothing leaks, also if something throws. *)
Theorem detached_balanced_partial : forall s, reachable s -> forall j o, ops s j = Some o -> proviso j (kd o) (log s) ->
  (forall x, times (Ev j (EDl x)) (log s) <= times (Ev j (EMk x)) (log s) <= 1) /\
  (finished s j -> forall x, times (Ev j (EDl x)) (log s) = times (Ev j (EMk x)) (log s)).
Proof.
  intros s R j o E P. destruct (@v_op _ (reach_inv R) j o E P) as (A & B & _). split.
  - intros x. rewrite (B (EDl x)), (B (EMk x)) by (destruct x; cbn; tauto). destruct x; cbn; [destruct (mem o)|destruct (env o)|destruct (oo o)]; cbn; lia.
  - intros F x. rewrite (B (EDl x)), (B (EMk x)) by (destruct x; cbn; tauto).
    assert (Z := @holds_in (fun x => existsb (fun a => match ostep x a with Some _ => true | None => false end) [OCall true; OCall false; OCompl] ||
       match cp x with CAssoc => true | _ => false end || (Bool.eqb (flag (EDl OMem) x) (flag (EMk OMem) x) && Bool.eqb (flag (EDl OEnv) x) (flag (EMk OEnv) x) && Bool.eqb (flag (EDl OOp) x) (flag (EMk OOp) x))) o ltac:(vm_compute; reflexivity) A).
    cbv beta in Z.
    assert (F1 : forall a, match a with OAssoc _ => False | _ => True end -> ostep o a = None).
    { intros a Ha. specialize (F a). cbn in F. rewrite E in F. destruct a; [| destruct Ha |]; destruct (ostep o _) as [[? ?]|]; auto; discriminate. }
    cbn [existsb] in Z. rewrite !F1 in Z by exact I. cbn [orb] in Z. destruct (cp o) eqn:Ec; cbn [orb] in Z;
      try (apply andb_prop in Z; destruct Z as [Z Z3]; apply andb_prop in Z; destruct Z as [Z1 Z2]; apply eqb_prop in Z1, Z2, Z3; destruct x; congruence).
    specialize (F (OAssoc (negb (closed s)))). cbn in F. rewrite E, Ec, eqb_reflx in F. discriminate.
Qed.
(** Nothing is destroyed before the sender has completed. *)
Theorem detached_alive_until_completion_partial : forall s, reachable s -> forall j o, ops s j = Some o -> proviso j (kd o) (log s) ->
  forall l1 l2, log s = l1 ++ Ev j ECompl :: l2 -> forall x, ~ In (Ev j (EDl x)) l2.
Proof. intros s R j o E P l1 l2 H. destruct (@v_op _ (reach_inv R) j o E P) as (_ & _ & C). apply (C _ _ H). Qed.
(** If the call throws, then everything it has made has been destroyed by then, its sender has not completed, and it has not returned. *)
Theorem detached_throw_partial : forall s, reachable s -> forall j o, ops s j = Some o -> proviso j (kd o) (log s) -> In (Ev j EThrow) (log s) ->
  ~ In (Ev j ECompl) (log s) /\ ~ In (Ev j ERet) (log s) /\ forall x, times (Ev j (EDl x)) (log s) = times (Ev j (EMk x)) (log s).
Proof.
  intros s R j o E P T. destruct (@v_op _ (reach_inv R) j o E P) as (A & B & _). apply times_in in T. rewrite (B EThrow) in T by (cbn; tauto).
  assert (Z := @holds_in (fun x => implb (flag EThrow x) (negb (flag ECompl x) && negb (flag ERet x) && (Bool.eqb (flag (EDl OMem) x) (flag (EMk OMem) x) && Bool.eqb (flag (EDl OEnv) x) (flag (EMk OEnv) x) && Bool.eqb (flag (EDl OOp) x) (flag (EMk OOp) x)))) o ltac:(vm_compute; reflexivity) A).
  cbv beta in Z. destruct (flag EThrow o); [|cbn in T; lia]. cbn [implb] in Z. apply andb_prop in Z. destruct Z as [Z Z5]. apply andb_prop in Z. destruct Z as [Z1 Z2].
  apply andb_prop in Z5. destruct Z5 as [Z5 Z3]. apply andb_prop in Z5. destruct Z5 as [Z4 Z5]. apply eqb_prop in Z3, Z4, Z5. apply negb_true_iff in Z1, Z2.
  split; [|split].
  - intros X. apply times_in in X. rewrite (B ECompl), Z1 in X by (cbn; tauto). cbn in X; lia.
  - intros X. apply times_in in X. rewrite (B ERet), Z2 in X by (cbn; tauto). cbn in X; lia.
  - intros x. rewrite (B (EDl x)), (B (EMk x)) by (destruct x; cbn; tauto). destruct x; congruence.
Qed.
(** stdexec::spawn: when the join of the scope completes, the memory of every operation that was associated with the scope has been given back. *)
Theorem spawn_freed_before_join : forall s, reachable s -> forall l1 l2 j, log s = l1 ++ EJoin :: l2 -> In (Ev j EAssoc) l2 -> In (Ev j (EDl OMem)) l2.
Proof. intros s R. apply (v_join (reach_inv R)). Qed.

(** Refuted without the proviso: a sender whose submit() completes the operation before it returns; the result is then constructed in memory that has been freed. *)
Definition inline k := [ANew 0 k; AOp 0 (OCall false); AOp 0 (OCall false); AOp 0 (OCall false); AOp 0 (OCall false);
  AOp 0 OCompl; AOp 0 OCompl; AOp 0 OCompl; AOp 0 OCompl; AOp 0 (OCall false)].
Theorem detached_submit_inline_refuted : forall k, keeps_result k = true ->
  exists s, reachable s /\ In (Ev 0 EBad) (log s) /\ (exists l1 l2, log s = l1 ++ Ev 0 (EMk OOp) :: l2 /\ In (Ev 0 (EDl OMem)) l2).
Proof.
  intros k K. assert (X : exists s, runs (inline k) init = Some s /\ log s = [Ev 0 (EMk OOp); Ev 0 EBad; Ev 0 (EDl OMem); Ev 0 (EDl OEnv); Ev 0 (EDl OOp); Ev 0 EBad; Ev 0 ECompl; Ev 0 EStart; Ev 0 (EMk OEnv); Ev 0 (EMk OMem)]).
  { destruct k; try discriminate; eexists; (split; [vm_compute; reflexivity | reflexivity]). }
  destruct X as [s [X1 X2]]. exists s. split; [exists (inline k); auto|]. rewrite X2. split; [cbn; tauto|]. exists [], (tl (log s)). rewrite X2. split; [reflexivity | cbn; tauto].
Qed.
(** Refuted: an exception from submitting the second sender of let_value reaches the receiver.  With a sender whose submit() may throw and nothing else that may, it is lost, and the operation never completes. *)
Theorem let_submit_exception_lost_refuted : ~ (forall k a b c, (k = KConnect -> c = false) -> let_submit_throws k a b c = SigError).
Proof. intros H. specialize (H KVoid true true true ltac:(discriminate)). discriminate. Qed.
(** With connect it does. *)
Theorem let_connect_exception_kept : forall a b, let_submit_throws KConnect a b false = SigError.
Proof. intros [] []; reflexivity. Qed.

(** Examples: a spawn whose connect throws, a spawn that completes on another thread before it returns, then join. *)
Definition two_spawns := [ANew 0 KSpawn; AOp 0 (OCall false); AOp 0 (OCall false); AOp 0 (OCall true); ANew 1 KSpawn; AOp 1 (OCall false); AOp 0 (OCall false); AOp 0 (OCall false); AOp 1 (OCall false); AOp 1 (OCall false);
  AOp 1 (OAssoc true); AClose; AOp 1 (OCall false); AOp 1 OCompl; AOp 1 OCompl; AOp 1 OCompl; AOp 1 OCompl; AOp 1 OCompl; AOp 1 OCompl; AJoin; AOp 1 (OCall false)].
Example two_spawns_log : option_map log (runs two_spawns init) = Some [Ev 1 ERet; EJoin; Ev 1 EDis; Ev 1 (EDl OMem); Ev 1 (EDl OEnv); Ev 1 (EDl OOp); Ev 1 ECompl; Ev 1 EStart; Ev 1 EAssoc; Ev 1 (EMk OOp); Ev 1 (EMk OEnv);
  Ev 0 EThrow; Ev 0 (EDl OMem); Ev 0 (EDl OEnv); Ev 1 (EMk OMem); Ev 0 (EMk OEnv); Ev 0 (EMk OMem)].
Proof. vm_compute. reflexivity. Qed.
(** a submit() that returns an object and completes later *)
Example submit_later : option_map (fun s => rev (log s)) (runs [ANew 0 KSubmit; AOp 0 (OCall false); AOp 0 (OCall false); AOp 0 (OCall false); AOp 0 (OCall false); AOp 0 (OCall false); AOp 0 OCompl; AOp 0 OCompl; AOp 0 OCompl; AOp 0 (OCall false); AOp 0 OCompl] init)
  = Some [Ev 0 (EMk OMem); Ev 0 (EMk OEnv); Ev 0 EStart; Ev 0 (EMk OOp); Ev 0 ECompl; Ev 0 (EDl OOp); Ev 0 (EDl OEnv); Ev 0 ERet; Ev 0 (EDl OMem)].
Proof. vm_compute. reflexivity. Qed.
