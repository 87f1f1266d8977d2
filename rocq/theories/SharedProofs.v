(** Invariant of the shared state of split / ensure_started. *)
From Coq Require Import List ZArith Bool Arith Lia.
From Verif Require Import Conc SharedModel.
Import ListNotations.
Set Implicit Arguments.
Open Scope Z_scope.
Arguments Z.add : simpl never.
Arguments Z.sub : simpl never.

Definition b2z (b : bool) : Z := if b then 1 else 0.
Definition result_dec (a b : result) : {a = b} + {a <> b}.
Proof. decide equality; apply Nat.eq_dec. Defined.
Definition event_dec (a b : event) : {a = b} + {a <> b}.
Proof. decide equality; try apply Nat.eq_dec; apply result_dec. Defined.
Definition count (e : event) (l : list event) : nat := count_occ event_dec l e.
(** number of completions of handle [k], number of completions of upstream *)
Definition comps (k : nat) (l : list event) : nat :=
  cnt (fun e => match e with EComp j _ => Nat.eqb j k | _ => false end) l.
Definition ups (l : list event) : nat :=
  cnt (fun e => match e with EUp _ => true | _ => false end) l.

Arguments count : simpl never.
Arguments comps : simpl never.
Arguments ups : simpl never.

Definition wD (d : dpc) : Z := match d with D1 | D4 => 1 | D2 b | D3 b => 1 + b2z b end.
(** references held *)
Definition wH (p : hpc) : Z :=
  match p with
  | HU | HX | HFc | HG _ => 0
  | HF d | HD _ d => wD d
  | _ => 1
  end.
Definition wK (c : kpc) : Z := match c with KDet d => wD d | _ => 0 end.
Definition h45 (p : hpc) : Z := match p with H4 | H5 => 1 | _ => 0 end.
Definition h5 (p : hpc) : Z := match p with H5 => 1 | _ => 0 end.
Definition upn (u : upc) : Z := match u with U0 => 0 | _ => 1 end.
Definition upa (u : upc) : Z := match u with U0 | UD => 0 | _ => 1 end.
Definition tomb (u : upc) : bool := match u with UN _ | UC _ _ | U5 | UD => true | _ => false end.
Definition isnone {A} (o : option A) : bool := match o with None => true | _ => false end.
Definition occ (w : nat) (l : list nat) : Z := Z.of_nat (count_occ Nat.eq_dec l w).
Definition wl (q : option (list nat)) : list nat := match q with Some q => q | None => [] end.
Definition ul (u : upc) : list nat := match u with UN ws => ws | UC j ws => j :: ws | _ => [] end.
Definition isHQ (o : option hpc) : Z := match o with Some HQ => 1 | _ => 0 end.

Definition kfree (c : kpc) : bool := match c with KNone | KReqd => true | _ => false end.
Definition kcb (c : kpc) : bool := match c with KReg | KRun => true | _ => false end.
Definition ok (p : hpc) (c : kpc) : bool :=
  match p with
  | HU | HS | H1 | H8 | HC | HD _ _ | HG _ => kfree c
  | H2 | H3 | H4 | H5 | H6 | H7 => match c with KReg | KRun | KReqd => true | _ => false end
  | HQ => match c with KDet _ | KFin => false | _ => true end
  | HX => match c with KDet _ | KFin => true | _ => false end
  | HF1 => match c with KRun | KReqd => true | _ => false end
  | HF _ | HFc => match c with KReqd => true | _ => false end
  end.

Definition ptrD (d : dpc) : bool := match d with D2 true | D3 true => true | _ => false end.
Definition ptrH (p : hpc) : bool := match p with HF d | HD _ d => ptrD d | _ => false end.
Definition ptrK (c : kpc) : bool := match c with KDet d => ptrD d | _ => false end.

Definition fS (o : option hpc) : nat :=
  match o with None | Some (HU | HS | HD false _ | HG false) => 0 | _ => 1 end.
Definition fC (o : option hpc) : nat :=
  match o with Some (HC | HD true _ | HG true) => 1 | _ => 0 end.
Definition fR (o : option kpc) : nat :=
  match o with None | Some (KNone | KReg) => 0 | _ => 1 end.
Definition fUp (u : upc) : nat := match u with U0 | U1 => 0 | _ => 1 end.

Definition h78 (p : hpc) : bool := match p with H7 | H8 => true | _ => false end.
Definition h6q (p : hpc) : bool := match p with H4 | H5 | H6 | HQ => true | _ => false end.

Record inv (s : state) : Prop := {
  i_rc : rc s = sumz wH (hs s) + sumz wK (ks s) + b2z (sref s);
  i_flag : sumz h45 (hs s) + upn (up s) = b2z (flag s);
  i_sref : sumz h5 (hs s) + upa (up s) = b2z (sref s);
  i_tomb : isnone (waiters s) = tomb (up s);
  i_occ : forall k, occ k (wl (waiters s)) + occ k (ul (up s)) = isHQ (nth_error (hs s) k);
  i_len : length (ks s) = length (hs s);
  i_ok : forall k p c, nth_error (hs s) k = Some p -> nth_error (ks s) k = Some c -> ok p c = true;
  i_wq : forall k c, In k (wl (waiters s)) -> nth_error (ks s) k = Some c -> kcb c = true;
  i_uc : forall j ws c, up s = UC j ws -> nth_error (ks s) j = Some c -> kfree c = true;
  i_ph : forall k p, nth_error (hs s) k = Some p -> ptrH p = true -> sref s = true \/ up s = UD;
  i_pk : forall k c, nth_error (ks s) k = Some c -> ptrK c = true -> sref s = true \/ up s = UD;
  i_sr : stopreq s = true -> upn (up s) = 1;
  i_st : forall k, count (EStart k) (log s) = fS (nth_error (hs s) k);
  i_cp : forall k, comps k (log s) = fC (nth_error (hs s) k);
  i_rq : forall k, count (EReq k) (log s) = fR (nth_error (ks s) k);
  i_us : Z.of_nat (count EUpStart (log s)) = upn (up s);
  i_up : ups (log s) = fUp (up s);
  i_fr : Z.of_nat (count EFree (log s)) = b2z (rc s =? 0);
  i_rs : (0 < fUp (up s))%nat -> In (EUp (res s)) (log s);
  i_vl : forall k r, In (EComp k r) (log s) ->
          r = RStopped /\ In (EReq k) (log s) \/ In (EUp r) (log s);
  i_ur : count EUpReq (log s) = (if stopreq s then 1 else 0)%nat;
  i_78 : forall k p, nth_error (hs s) k = Some p -> h78 p = true -> waiters s = None;
  i_fl : forall k p, nth_error (hs s) k = Some p -> h6q p = true -> flag s = true
}.

Lemma wD_nn d : 0 < wD d. Proof. destruct d as [|[]|[]|]; simpl; lia. Qed.
Lemma wH_nn p : 0 <= wH p. Proof. destruct p; simpl; try lia; pose proof (wD_nn d); lia. Qed.
Lemma wK_nn c : 0 <= wK c. Proof. destruct c; simpl; try lia; pose proof (wD_nn d); lia. Qed.
Lemma h45_nn p : 0 <= h45 p. Proof. destruct p; simpl; lia. Qed.
Lemma h5_nn p : 0 <= h5 p. Proof. destruct p; simpl; lia. Qed.
Lemma occ_nn w l : 0 <= occ w l. Proof. unfold occ; lia. Qed.
Lemma h5_45 l : sumz h5 l <= sumz h45 l.
Proof. induction l as [|a l IH]; simpl; [lia|]. destruct a; simpl; lia. Qed.

Lemma count_in e l : In e l <-> (0 < count e l)%nat.
Proof. unfold count. rewrite (count_occ_In event_dec). lia. Qed.
Lemma occ_in w l : In w l <-> 0 < occ w l.
Proof. unfold occ. rewrite (count_occ_In Nat.eq_dec). lia. Qed.
Lemma count_cons e a l : count e (a :: l) = ((if event_dec a e then 1 else 0) + count e l)%nat.
Proof. unfold count; simpl. destruct (event_dec a e); lia. Qed.
Lemma occ_cons w a l : occ w (a :: l) = (if Nat.eqb a w then 1 else 0) + occ w l.
Proof. unfold occ; simpl. destruct (Nat.eq_dec a w), (Nat.eqb_spec a w); lia. Qed.
Lemma occ_remove w k l : occ w (remove Nat.eq_dec k l) = if Nat.eqb k w then 0 else occ w l.
Proof.
  induction l as [|a l IH]; [unfold occ; simpl; destruct (k =? w)%nat; reflexivity|].
  cbn [remove]. destruct (Nat.eq_dec k a) as [->|N].
  - rewrite IH, occ_cons. destruct (Nat.eqb_spec a w); lia.
  - rewrite !occ_cons, IH. destruct (Nat.eqb_spec a w), (Nat.eqb_spec k w); lia.
Qed.

Ltac pr := cbn [hs ks up flag sref rc waiters stopreq res log set_h set_k set_up set_flag set_sref set_rc
                set_waiters set_stopreq set_res emit] in *.

Lemma comps_cons k a l :
  comps k (a :: l) = ((match a with EComp j _ => if Nat.eqb j k then 1 else 0 | _ => 0 end) + comps k l)%nat.
Proof. unfold comps; simpl. destruct a; simpl; auto; destruct (Nat.eqb k0 k); reflexivity. Qed.
Lemma ups_cons a l : ups (a :: l) = ((match a with EUp _ => 1 | _ => 0 end) + ups l)%nat.
Proof. unfold ups; simpl. destruct a; reflexivity. Qed.

Lemma in_w s k : inv s -> In k (wl (waiters s)) -> nth_error (hs s) k = Some HQ.
Proof.
  intros I H. apply occ_in in H. pose proof (i_occ I k). pose proof (occ_nn k (ul (up s))).
  destruct (nth_error (hs s) k) as [[]|]; simpl in *; auto; lia.
Qed.
Lemma in_u s k : inv s -> In k (ul (up s)) -> nth_error (hs s) k = Some HQ.
Proof.
  intros I H. apply occ_in in H. pose proof (i_occ I k). pose proof (occ_nn k (wl (waiters s))).
  destruct (nth_error (hs s) k) as [[]|]; simpl in *; auto; lia.
Qed.
Lemma uc_hq s j ws : inv s -> up s = UC j ws -> nth_error (hs s) j = Some HQ.
Proof. intros I H. apply (in_u _ I). rewrite H. left; reflexivity. Qed.

(** index bookkeeping *)
Ltac nths :=
  repeat match goal with
  | Hp : nth_error (hs ?s) ?k = Some _, E : context [nth_error (upd (hs ?s) ?k _) _] |- _ =>
      rewrite (nth_upd _ _ _ _ Hp) in E
  | Hp : nth_error (ks ?s) ?k = Some _, E : context [nth_error (upd (ks ?s) ?k _) _] |- _ =>
      rewrite (nth_upd _ _ _ _ Hp) in E
  | Hp : nth_error (hs ?s) ?k = Some _ |- context [nth_error (upd (hs ?s) ?k _) _] =>
      rewrite (nth_upd _ _ _ _ Hp)
  | Hp : nth_error (ks ?s) ?k = Some _ |- context [nth_error (upd (ks ?s) ?k _) _] =>
      rewrite (nth_upd _ _ _ _ Hp)
  end.
Ltac sums :=
  repeat match goal with
  | Hp : nth_error (hs ?s) ?k = Some _ |- context [sumz ?w (upd (hs ?s) ?k ?q)] =>
      rewrite (@sumz_upd _ w _ _ q _ Hp)
  | Hp : nth_error (ks ?s) ?k = Some _ |- context [sumz ?w (upd (ks ?s) ?k ?q)] =>
      rewrite (@sumz_upd _ w _ _ q _ Hp)
  end.
Ltac eqbs :=
  repeat match goal with
  | E : context [Nat.eqb ?a ?b] |- _ => destruct (Nat.eqb_spec a b); subst
  | |- context [Nat.eqb ?a ?b] => destruct (Nat.eqb_spec a b); subst
  end.
Ltac inj :=
  repeat match goal with
  | E : Some _ = Some _ |- _ => injection E; clear E; intros; subst
  end.
Ltac evs :=
  repeat match goal with
  | |- context [event_dec ?a ?b] =>
      let E := fresh in destruct (event_dec a b) as [E|E];
        [try discriminate E; try (injection E; clear E; intros; subst)|]
  end.

Ltac eus := try match goal with E : up _ = _ |- _ => rewrite E in * end;
  try match goal with E : waiters _ = _ |- _ => rewrite E in * end.
Ltac tsum I := pose proof (i_rc I); pose proof (i_flag I); pose proof (i_sref I); sums;
  try match goal with E : sref _ = _ |- _ => rewrite E in * end; eus; simpl in *; try lia.
Ltac tocc I := let j := fresh "j" in intros j; pose proof (i_occ I j); nths; eqbs;
  repeat match goal with Hp : nth_error (hs _) _ = Some _ |- _ => rewrite Hp in * end;
  eus; simpl in *; rewrite ?occ_cons, ?occ_remove in *; simpl in *; eqbs; try lia; try congruence.
Ltac tlen I := rewrite ?upd_length; exact (i_len I).
Ltac tok I := let j := fresh "j" in let p := fresh "p" in let c := fresh "c" in let E1 := fresh "E1" in
  let E2 := fresh "E2" in
  intros j p c E1 E2; nths; eqbs; inj; try (exact (i_ok I _ E1 E2)); try congruence;
  repeat match goal with
  | A : nth_error ?l ?a = Some ?x, B : nth_error ?l ?a = Some ?y |- _ =>
      rewrite A in B; injection B; clear B; intros; subst
  end;
  repeat match goal with
  | Hp : nth_error (hs _) ?a = Some _, Hc : nth_error (ks _) ?a = Some _ |- _ =>
      let Q := fresh in pose proof (i_ok I _ Hp Hc) as Q; simpl in Q; clear Hc
  end; simpl; auto;
  repeat match goal with c : kpc |- _ => destruct c; simpl in *; try discriminate; auto end;
  try (match goal with p : hpc |- _ => destruct p; simpl in *; try discriminate; auto end).
Ltac twq I := let j := fresh "j" in let c := fresh "c" in let E1 := fresh "E1" in let E2 := fresh "E2" in
  intros j c E1 E2; nths; eqbs; inj; simpl in *; try (exact (i_wq I _ E1 E2)); try contradiction; auto;
  try (let W := fresh in pose proof (i_wq I) as W; eus; simpl in W; eapply W; intuition (eassumption || congruence));
  try (match goal with Hc : nth_error (ks _) _ = Some _ |- _ =>
    let Q := fresh in pose proof (i_wq I _ E1 Hc) as Q; simpl in Q; try discriminate Q; try exact Q end);
  try (exfalso; let Q := fresh in pose proof (@in_w _ _ I E1) as Q; congruence).
Ltac tuc I := let j := fresh "j" in let c := fresh "c" in let ws := fresh "ws" in
  let E1 := fresh "E1" in let E2 := fresh "E2" in
  intros j ws c E1 E2; nths; eqbs; inj; simpl in *; try discriminate; try (exact (@i_uc _ I _ _ _ E1 E2)); auto;
  try (match goal with Hc : nth_error (ks _) _ = Some _ |- _ =>
    let Q := fresh in pose proof (@i_uc _ I _ _ _ E1 Hc) as Q; simpl in Q; try discriminate Q; try exact Q end);
  try (exfalso; let Q := fresh in pose proof (@uc_hq _ _ _ I E1) as Q; congruence).
Ltac tph I := let j := fresh "j" in let c := fresh "c" in let E1 := fresh "E1" in let E2 := fresh "E2" in
  intros j c E1 E2; nths; eqbs; inj; simpl in *; try discriminate;
  try (exact (i_ph I _ E1 E2)); try (exact (i_pk I _ E1 E2)); auto;
  try match goal with
  | Hp : nth_error (hs _) _ = Some _ |- _ => exact (i_ph I _ Hp eq_refl)
  | Hp : nth_error (ks _) _ = Some _ |- _ => exact (i_pk I _ Hp eq_refl)
  end;
  try (destruct (i_ph I _ E1 E2); [auto|congruence]);
  try (destruct (i_pk I _ E1 E2); [auto|congruence]).
Ltac tcnt I := intros; rewrite ?count_cons, ?comps_cons, ?ups_cons; nths; evs;
  rewrite ?(i_st I), ?(i_cp I), ?(i_rq I), ?(i_us I), ?(i_up I), ?(i_ur I); eqbs;
  repeat match goal with
  | Hp : nth_error (hs _) ?a = Some _ |- context [nth_error (hs _) ?a] => rewrite Hp
  | Hp : nth_error (ks _) ?a = Some _ |- context [nth_error (ks _) ?a] => rewrite Hp
  end; try match goal with E : stopreq _ = _ |- _ => rewrite E end; eus;
  simpl; try congruence; try reflexivity; try lia.
Ltac tus I := pose proof (i_us I); rewrite ?count_cons; evs; eus; simpl in *; try lia; try congruence.
Ltac zeqs := repeat match goal with
  | E : context [Z.eqb ?a ?b] |- _ => destruct (Z.eqb_spec a b)
  | |- context [Z.eqb ?a ?b] => destruct (Z.eqb_spec a b) end.
Ltac tfr I := pose proof (i_fr I); rewrite ?count_cons; evs; simpl in *; try lia; try assumption; try congruence;
  zeqs; simpl in *; lia.
Ltac trs I := pose proof (i_rs I); eus; simpl in *; auto; try lia.
Ltac tvl I := let k := fresh "k" in let r := fresh "r" in let E := fresh "E" in
  intros k r E; simpl in E; repeat (destruct E as [E|E]; [try discriminate E|]);
  try (destruct (i_vl I _ _ E) as [[? ?]|?]; simpl; auto; fail).

Ltac t78 I := let j := fresh "j" in let p := fresh "p" in let E1 := fresh "E1" in let E2 := fresh "E2" in
  intros j p E1 E2; nths; eqbs; inj; simpl in *; try discriminate; try (exact (i_78 I _ E1 E2)); auto;
  try (let Q := fresh in pose proof (i_78 I _ E1 E2) as Q; congruence);
  try match goal with Hp : nth_error (hs _) _ = Some _ |- _ => exact (i_78 I _ Hp eq_refl) end.
Ltac tfl I := let j := fresh "j" in let p := fresh "p" in let E1 := fresh "E1" in let E2 := fresh "E2" in
  intros j p E1 E2; nths; eqbs; inj; simpl in *; try discriminate; try (exact (i_fl I _ E1 E2)); auto;
  try match goal with Hp : nth_error (hs _) _ = Some _ |- _ => exact (i_fl I _ Hp eq_refl) end.
Ltac all I := split; pr;
  [ tsum I | tsum I | tsum I | pose proof (i_tomb I); eus; simpl in *; try congruence | tocc I | tlen I | tok I
  | twq I | tuc I | tph I | tph I | pose proof (i_sr I); simpl in *; auto; try congruence
  | tcnt I | tcnt I | tcnt I | tus I | tcnt I | tfr I | trs I | tvl I | tcnt I | t78 I | tfl I ].

Lemma start_inv k s s' : inv s -> step (AStart k) s = Some s' -> inv s'.
Proof.
  intros I H. simpl in H. destruct (nth_error (hs s) k) as [[]|] eqn:Hp; try discriminate.
  injection H as <-. all I.
Qed.

Lemma drop_inv k s s' : inv s -> step (ADrop k) s = Some s' -> inv s'.
Proof.
  intros I H. simpl in H. destruct (nth_error (hs s) k) as [[]|] eqn:Hp; try discriminate;
  injection H as <-; all I.
Qed.

Lemma over_inv k s s' : inv s -> step (AOver k) s = Some s' -> inv s'.
Proof.
  intros I H. simpl in H. destruct (nth_error (hs s) k) as [[]|] eqn:Hp; try discriminate;
  injection H as <-; all I.
Qed.

Lemma rc_pos s k p : inv s -> nth_error (hs s) k = Some p -> 0 < wH p -> 1 <= rc s.
Proof.
  intros I Hp W. rewrite (i_rc I). pose proof (sumz_ge _ _ wH_nn _ Hp).
  pose proof (sumz_nonneg wK (ks s) wK_nn). destruct (sref s); simpl; lia.
Qed.
Lemma rc_pos_k s k c : inv s -> nth_error (ks s) k = Some c -> 0 < wK c -> 1 <= rc s.
Proof.
  intros I Hp W. rewrite (i_rc I). pose proof (sumz_ge _ _ wK_nn _ Hp).
  pose proof (sumz_nonneg wH (hs s) wH_nn). destruct (sref s); simpl; lia.
Qed.

Lemma copy_inv k k' s s' : inv s -> step (ACopy k k') s = Some s' -> inv s'.
Proof.
  intros I H. simpl in H. destruct (nth_error (hs s) k) as [[]|] eqn:Hk; try discriminate.
  destruct (nth_error (hs s) k') as [[]|] eqn:Hp; try discriminate.
  assert (R : 1 <= rc s) by (eapply rc_pos; [exact I|exact Hk|simpl; lia]). clear Hk.
  injection H as <-; all I.
Qed.

Lemma req_inv k s s' : inv s -> step (AReq k) s = Some s' -> inv s'.
Proof.
  intros I H. simpl in H. destruct (nth_error (ks s) k) as [[]|] eqn:Hc; try discriminate;
  injection H as <-; all I.
Qed.

Lemma up_inv r s s' : inv s -> step (AUp r) s = Some s' -> inv s'.
Proof.
  intros I H. simpl in H. destruct (up s) eqn:Eu; try discriminate. injection H as <-.
  pose proof (i_occ I) as IO. pose proof (i_tomb I) as IT. rewrite Eu in *.
  split; pr.
  1-3: pose proof (i_rc I); pose proof (i_flag I); pose proof (i_sref I); rewrite Eu in *; simpl in *; lia.
  all: try (first [exact (i_len I)|exact (i_ok I)|exact (i_wq I)|exact (i_rq I)|exact IT|exact IO]).
  all: try (intros; discriminate).
  all: pose proof (i_us I) as IUS; pose proof (i_up I) as IUP; pose proof (i_fr I) as IFR;
       rewrite Eu in *; simpl in *.
  - intros k p E1 E2. destruct (i_ph I _ E1 E2); [auto|congruence].
  - intros k p E1 E2. destruct (i_pk I _ E1 E2); [auto|congruence].
  - auto.
  - intros. rewrite count_cons. evs. apply (i_st I).
  - intros. rewrite comps_cons. apply (i_cp I).
  - rewrite count_cons. evs. simpl. exact IUS.
  - rewrite ups_cons, IUP. reflexivity.
  - rewrite count_cons. evs. exact IFR.
  - auto.
  - tvl I.
  - rewrite count_cons. evs. exact (i_ur I).
  - exact (i_78 I).
  - exact (i_fl I).
Qed.

Lemma rc_ge s k p : inv s -> nth_error (hs s) k = Some p -> wH p <= rc s.
Proof.
  intros I Hp. rewrite (i_rc I). pose proof (sumz_ge _ _ wH_nn _ Hp).
  pose proof (sumz_nonneg wK (ks s) wK_nn). destruct (sref s); simpl; lia.
Qed.
Lemma rc_ge_k s k c : inv s -> nth_error (ks s) k = Some c -> wK c <= rc s.
Proof.
  intros I Hp. rewrite (i_rc I). pose proof (sumz_ge _ _ wK_nn _ Hp).
  pose proof (sumz_nonneg wH (hs s) wH_nn). destruct (sref s); simpl; lia.
Qed.

Lemma ptr_upn s : inv s -> sref s = true \/ up s = UD -> upn (up s) = 1 \/ 1 <= sumz h5 (hs s).
Proof.
  intros I [E|E].
  - pose proof (i_sref I) as G. rewrite E in G. simpl in G. destruct (up s); simpl in *; auto; lia.
  - rewrite E. auto.
Qed.

Lemma h5_wH l : sumz h5 l <= sumz wH l.
Proof. induction l as [|a l IH]; simpl; [lia|]. pose proof (wH_nn a). destruct a; simpl in *; lia. Qed.

Lemma h5_wH_k l : forall k p, nth_error l k = Some p -> h5 p = 0 -> sumz h5 l + wH p <= sumz wH l.
Proof.
  induction l as [|a l IH]; intros [|k] p H E; simpl in *; try discriminate.
  - injection H as ->. pose proof (h5_wH l). destruct p; simpl in *; lia.
  - specialize (IH _ _ H E). pose proof (wH_nn a). destruct a; simpl in *; lia.
Qed.

Lemma hf_inv k d c s s' : inv s -> nth_error (hs s) k = Some (HF d) -> nth_error (ks s) k = Some c ->
  h_step k (HF d) c s = Some s' -> inv s'.
Proof.
  intros I Hp Hc H. simpl in H. pose proof (rc_ge _ I Hp) as R. simpl in R.
  assert (SR : d = D2 true -> rc s = 3 -> upn (up s) = 1).
  { intros -> R3. destruct (ptr_upn I (i_ph I _ Hp eq_refl)) as [E|E]; [exact E|].
    pose proof (h5_wH_k _ _ Hp eq_refl) as G. simpl in G. pose proof (i_rc I). pose proof (i_sref I).
    pose proof (sumz_nonneg wK (ks s) wK_nn). assert (0 <= upa (up s)) by (destruct (up s); simpl; lia).
    destruct (sref s); simpl in *; lia. }
  destruct d as [|b|b|]; simpl in H.
  - destruct (sref s) eqn:Es; injection H as <-; all I.
  - destruct b; simpl in H; [destruct (Z.eqb_spec (rc s) 3) as [R3|R3]; [destruct (stopreq s) eqn:Er|]|];
      injection H as <-; all I.
  - destruct b; simpl in H, R; unfold release in H; simpl in H;
      [destruct (Z.eqb_spec (rc s - 1) 0) as [R0|R0]; [lia|]|];
      injection H as <-; all I.
  - unfold release in H; simpl in H.
    destruct (Z.eqb_spec (rc s - 1) 0) as [R0|R0]; injection H as <-; all I.
Qed.

Lemma hd_inv k b0 d c s s' : inv s -> nth_error (hs s) k = Some (HD b0 d) -> nth_error (ks s) k = Some c ->
  h_step k (HD b0 d) c s = Some s' -> inv s'.
Proof.
  intros I Hp Hc H. simpl in H. pose proof (rc_ge _ I Hp) as R. simpl in R.
  assert (SR : d = D2 true -> rc s = 3 -> upn (up s) = 1).
  { intros -> R3. destruct (ptr_upn I (i_ph I _ Hp eq_refl)) as [E|E]; [exact E|].
    pose proof (h5_wH_k _ _ Hp eq_refl) as G. simpl in G. pose proof (i_rc I). pose proof (i_sref I).
    pose proof (sumz_nonneg wK (ks s) wK_nn). assert (0 <= upa (up s)) by (destruct (up s); simpl; lia).
    destruct (sref s); simpl in *; lia. }
  destruct d as [|b|b|]; simpl in H.
  - destruct (sref s) eqn:Es; injection H as <-; destruct b0; all I.
  - destruct b; simpl in H; [destruct (Z.eqb_spec (rc s) 3) as [R3|R3]; [destruct (stopreq s) eqn:Er|]|];
      injection H as <-; destruct b0; all I.
  - destruct b; simpl in H, R; unfold release in H; simpl in H;
      [destruct (Z.eqb_spec (rc s - 1) 0) as [R0|R0]; [lia|]|];
      injection H as <-; destruct b0; all I.
  - unfold release in H; simpl in H.
    destruct (Z.eqb_spec (rc s - 1) 0) as [R0|R0]; injection H as <-; destruct b0; all I.
Qed.

Lemma kd_inv k d s s' : inv s -> nth_error (ks s) k = Some (KDet d) ->
  k_step k (KDet d) s = Some s' -> inv s'.
Proof.
  intros I Hp H. simpl in H. pose proof (rc_ge_k _ I Hp) as R. simpl in R.
  assert (SR : d = D2 true -> rc s = 3 -> upn (up s) = 1).
  { intros -> R3. destruct (ptr_upn I (i_pk I _ Hp eq_refl)) as [E|E]; [exact E|].
    pose proof (h5_wH (hs s)) as G. pose proof (i_rc I). pose proof (i_sref I).
    pose proof (sumz_ge _ _ wK_nn _ Hp). simpl in *. assert (0 <= upa (up s)) by (destruct (up s); simpl; lia).
    destruct (sref s); simpl in *; lia. }
  destruct d as [|b|b|]; simpl in H.
  - destruct (sref s) eqn:Es; injection H as <-; all I.
  - destruct b; simpl in H; [destruct (Z.eqb_spec (rc s) 3) as [R3|R3]; [destruct (stopreq s) eqn:Er|]|];
      injection H as <-; all I.
  - destruct b; simpl in H, R; unfold release in H; simpl in H;
      [destruct (Z.eqb_spec (rc s - 1) 0) as [R0|R0]; [lia|]|];
      injection H as <-; all I.
  - unfold release in H; simpl in H.
    destruct (Z.eqb_spec (rc s - 1) 0) as [R0|R0]; injection H as <-; all I.
Qed.

Lemma upn_flag s k p : inv s -> nth_error (hs s) k = Some p -> h45 p = 1 ->
  up s = U0 /\ flag s = true.
Proof.
  intros I Hp E. pose proof (sumz_ge _ _ h45_nn _ Hp). pose proof (i_flag I).
  assert (0 <= upn (up s)) by (destruct (up s); simpl; lia).
  destruct (flag s); simpl in *; [|lia]. split; [|reflexivity]. destruct (up s); simpl in *; lia || reflexivity.
Qed.

Lemma h4_h5 l : forall k, nth_error l k = Some H4 -> sumz h5 l + 1 <= sumz h45 l.
Proof.
  induction l as [|a l IH]; intros [|k] H; simpl in *; try discriminate.
  - injection H as ->. pose proof (h5_45 l). simpl. lia.
  - specialize (IH _ H). destruct a; simpl; lia.
Qed.

Lemma h_inv k p c s s' : inv s -> nth_error (hs s) k = Some p -> nth_error (ks s) k = Some c ->
  h_step k p c s = Some s' -> inv s'.
Proof.
  intros I Hp Hc H. pose proof (rc_ge _ I Hp) as R.
  destruct p; try discriminate H; try (eapply hf_inv; eassumption); try (eapply hd_inv; eassumption);
    simpl in H, R.
  - (* H1 *) injection H as <-. pose proof (i_ok I _ Hp Hc) as K. simpl in K.
    destruct c; try discriminate K; all I.
  - (* H2 *) pose proof (i_ok I _ Hp Hc) as K. simpl in K.
    injection H as <-. destruct c; try discriminate K; simpl; all I.
  - (* H3 *)
    destruct (flag s) eqn:Ef; injection H as <-; all I.
    rewrite Ef in *. simpl in *. lia.
  - (* H4 *)
    destruct (upn_flag _ I Hp eq_refl) as [Eu Ef].
    destruct (sref s) eqn:Es.
    { exfalso. pose proof (h4_h5 _ _ Hp). pose proof (i_flag I). pose proof (i_sref I).
      rewrite Eu, Ef, Es in *. simpl in *. lia. }
    injection H as <-; all I.
  - (* H5 *)
    destruct (upn_flag _ I Hp eq_refl) as [Eu Ef].
    destruct (stopreq s) eqn:Er.
    { pose proof (i_sr I Er) as G. rewrite Eu in G. discriminate. }
    injection H as <-; all I.
  - (* H6 *)
    pose proof (i_ok I _ Hp Hc) as K. simpl in K.
    destruct (waiters s) as [q|] eqn:Eq; [destruct c; try discriminate K; simpl in H|];
      injection H as <-; all I.
    destruct E1 as [<-|E1].
    { rewrite Hc in E2. injection E2 as <-. reflexivity. }
    apply (i_wq I j); [rewrite Eq; exact E1|exact E2].
  - (* H7 *)
    pose proof (i_ok I _ Hp Hc) as K. simpl in K.
    destruct c; try discriminate K; simpl in H; try discriminate H; injection H as <-; all I.
  - (* H8 *)
    assert (U : In (EUp (res s)) (log s)).
    { apply (i_rs I). pose proof (i_tomb I) as T. rewrite (i_78 I _ Hp eq_refl) in T.
      destruct (up s); simpl in *; try discriminate; lia. }
    injection H as <-; all I.
    injection E as <- <-. right. right. exact U.
  - (* HF1 *)
    pose proof (i_ok I _ Hp Hc) as K. simpl in K.
    destruct c; try discriminate K; simpl in H; try discriminate H; injection H as <-; all I.
  - (* HFc *)
    pose proof (i_ok I _ Hp Hc) as K. simpl in K. destruct c; try discriminate K.
    injection H as <-; all I.
    injection E as <- <-. left. split; [reflexivity|]. right. apply count_in. rewrite (i_rq I), Hc.
    simpl; lia.
Qed.

Lemma k_inv k c s s' : inv s -> nth_error (ks s) k = Some c -> k_step k c s = Some s' -> inv s'.
Proof.
  intros I Hc H. destruct c; try discriminate H; try (eapply kd_inv; eassumption); simpl in H.
  - (* KRun *)
    assert (L : exists p, nth_error (hs s) k = Some p).
    { destruct (nth_error (hs s) k) eqn:E; [eauto|]. apply nth_error_None in E.
      rewrite <- (i_len I) in E. apply nth_error_None in E. congruence. }
    destruct L as [p Hp].
    destruct (waiters s) as [q|] eqn:Eq.
    + destruct (in_dec Nat.eq_dec k q) as [Hi|Hi].
      * assert (p = HQ). { assert (In k (wl (waiters s))) by (rewrite Eq; exact Hi).
          rewrite (in_w _ I H0) in Hp. congruence. } subst p.
        assert (OQ : occ k q = 1). { pose proof (i_occ I k) as G. rewrite Eq, Hp in G. simpl in G.
          apply occ_in in Hi. pose proof (occ_nn k (ul (up s))). lia. }
        assert (OU : occ k (ul (up s)) = 0). { pose proof (i_occ I k) as G. rewrite Eq, Hp in G. simpl in G. lia. }
        injection H as <-. all I.
        { exfalso. exact (remove_In _ _ _ E1). }
        { apply in_remove in E1. apply (i_wq I j); [rewrite Eq; apply E1|exact E2]. }
      * injection H as <-. all I. exfalso. apply Hi. rewrite Eq in E1. exact E1.
    + injection H as <-. all I. rewrite Eq in E1. contradiction.
  - (* KFin *)
    assert (L : exists p, nth_error (hs s) k = Some p).
    { destruct (nth_error (hs s) k) eqn:E; [eauto|]. apply nth_error_None in E.
      rewrite <- (i_len I) in E. apply nth_error_None in E. congruence. }
    destruct L as [p Hp]. pose proof (i_ok I _ Hp Hc) as K. destruct p; try discriminate K.
    injection H as <-. all I.
    injection E as <- <-. left. split; [reflexivity|]. right. apply count_in. rewrite (i_rq I), Hc.
    simpl; lia.
Qed.

Lemma u_inv s s' : inv s -> u_step s = Some s' -> inv s'.
Proof.
  intros I H. unfold u_step in H. destruct (up s) as [| | |[|j ws]|j ws| |] eqn:Eu; try discriminate H.
  - (* U2 *)
    destruct (waiters s) as [q|] eqn:Eq; [|discriminate H]. injection H as <-. all I.
  - injection H as <-. all I.
  - (* UN *)
    destruct (nth_error (ks s) j) as [c|] eqn:Hc; [|discriminate H].
    assert (Hp : nth_error (hs s) j = Some HQ) by (apply (in_u _ I); rewrite Eu; left; reflexivity).
    assert (Eq : waiters s = None).
    { pose proof (i_tomb I) as T. rewrite Eu in T. destruct (waiters s); [discriminate|reflexivity]. }
    destruct c; simpl in H; try discriminate H; injection H as <-; all I.
    all: try (rewrite Eq in E1; contradiction).
    all: try (injection E1 as <- <-; congruence).
    all: try (injection E1 as <- <-; rewrite Hc in E2; injection E2 as <-; reflexivity).
  - (* UC *)
    pose proof (uc_hq I Eu) as Hp.
    assert (L : exists c, nth_error (ks s) j = Some c).
    { destruct (nth_error (ks s) j) eqn:E; [eauto|]. apply nth_error_None in E.
      rewrite (i_len I) in E. apply nth_error_None in E. congruence. }
    destruct L as [c Hc]. pose proof (@i_uc _ I _ _ _ Eu Hc) as KF.
    assert (U : In (EUp (res s)) (log s)) by (apply (i_rs I); rewrite Eu; simpl; lia).
    injection H as <-. all I.
    injection E as <- <-. right. right. exact U.
  - (* U5 *)
    unfold release in H. simpl in H.
    assert (Es : sref s = true).
    { pose proof (i_sref I) as G. rewrite Eu in G. simpl in G. pose proof (sumz_nonneg h5 (hs s) h5_nn).
      destruct (sref s); simpl in *; auto; lia. }
    assert (R : 1 <= rc s).
    { rewrite (i_rc I), Es. pose proof (sumz_nonneg wH (hs s) wH_nn).
      pose proof (sumz_nonneg wK (ks s) wK_nn). simpl; lia. }
    destruct (Z.eqb_spec (rc s - 1) 0) as [R0|R0]; injection H as <-; all I.
Qed.

Lemma step_inv a s s' : inv s -> step a s = Some s' -> inv s'.
Proof.
  intros I H. destruct a.
  - eapply start_inv; eauto.
  - eapply drop_inv; eauto.
  - eapply over_inv; eauto.
  - eapply copy_inv; eauto.
  - eapply req_inv; eauto.
  - eapply up_inv; eauto.
  - simpl in H. destruct (nth_error (hs s) k) eqn:Hp; [|discriminate].
    destruct (nth_error (ks s) k) eqn:Hc; [|discriminate]. eapply h_inv; eauto.
  - simpl in H. destruct (nth_error (ks s) k) eqn:Hc; [|discriminate]. eapply k_inv; eauto.
  - eapply u_inv; eauto.
Qed.

Lemma runs_inv l : forall s s', inv s -> runs l s = Some s' -> inv s'.
Proof.
  induction l as [|a l IH]; simpl; intros s s' I H; [injection H as <-; exact I|].
  destruct (step a s) as [s1|] eqn:E; [|discriminate]. eapply IH; [|exact H]. eapply step_inv; eauto.
Qed.

Lemma nth_init n m k p : nth_error (repeat HS n ++ repeat HU m) k = Some p -> p = HS \/ p = HU.
Proof.
  intros H. apply nth_error_In, in_app_or in H. destruct H as [H|H]; apply repeat_spec in H; auto.
Qed.

Lemma split_inv n m : inv (split_init n m).
Proof.
  assert (NH : forall k p, nth_error (hs (split_init n m)) k = Some p -> p = HS \/ p = HU).
  { intros k p E. exact (@nth_init (1 + n) m k p E). }
  assert (NK : forall k c, nth_error (ks (split_init n m)) k = Some c -> c = KNone).
  { intros k c E. exact (nth_repeat_some _ _ _ E). }
  assert (SW : forall k, sumz wH (repeat HS k) = Z.of_nat k)
    by (induction k; cbn [repeat sumz wH]; lia).
  assert (SU : forall w : hpc -> Z, w HU = 0 -> forall k, sumz w (repeat HU k) = 0)
    by (intros; apply sumz_repeat; auto).
  split; intros.
  - unfold split_init; cbn [rc hs ks sref]. rewrite sumz_app, SW, SU, sumz_repeat by reflexivity.
    simpl b2z. lia.
  - unfold split_init; cbn [hs flag up]. rewrite sumz_app, !sumz_repeat by reflexivity. reflexivity.
  - unfold split_init; cbn [hs sref up]. rewrite sumz_app, !sumz_repeat by reflexivity. reflexivity.
  - reflexivity.
  - destruct (nth_error (hs (split_init n m)) k) as [p|] eqn:E; [|reflexivity].
    destruct (NH _ _ E); subst; reflexivity.
  - unfold split_init; cbn [ks hs]. rewrite app_length, !repeat_length. reflexivity.
  - apply NK in H0. destruct (NH _ _ H); subst; reflexivity.
  - contradiction.
  - discriminate.
  - destruct (NH _ _ H); subst; discriminate.
  - apply NK in H. subst; discriminate.
  - discriminate.
  - destruct (nth_error (hs (split_init n m)) k) as [p|] eqn:E; [|reflexivity].
    destruct (NH _ _ E); subst; reflexivity.
  - destruct (nth_error (hs (split_init n m)) k) as [p|] eqn:E; [|reflexivity].
    destruct (NH _ _ E); subst; reflexivity.
  - destruct (nth_error (ks (split_init n m)) k) as [p|] eqn:E; [|reflexivity].
    rewrite (NK _ _ E). reflexivity.
  - reflexivity.
  - reflexivity.
  - unfold split_init; cbn [rc log]. destruct (Z.eqb_spec (1 + Z.of_nat n) 0); [lia|reflexivity].
  - simpl in H. lia.
  - contradiction.
  - reflexivity.
  - destruct (NH _ _ H); subst; discriminate.
  - destruct (NH _ _ H); subst; discriminate.
Qed.

Lemma es_inv : inv es_init.
Proof.
  split; intros; try reflexivity; try discriminate; try contradiction.
  - destruct k as [|[|k]]; reflexivity.
  - destruct k as [|[|k]]; simpl in *; try discriminate; injection H as <-; injection H0 as <-; reflexivity.
  - destruct k as [|[|k]]; simpl in *; try discriminate; injection H as <-; discriminate.
  - destruct k as [|[|k]]; simpl in *; try discriminate; injection H as <-; discriminate.
  - destruct k as [|[|k]]; reflexivity.
  - destruct k as [|[|k]]; reflexivity.
  - destruct k as [|[|k]]; reflexivity.
  - simpl in H. lia.
  - simpl in H. destruct H as [H|[]]; discriminate.
  - destruct k as [|[|k]]; simpl in *; try discriminate; injection H as <-; discriminate.
Qed.

(** Reachable by split or by ensure_started. *)
Definition reach (s : state) : Prop := split_reach s \/ es_reach s.

Lemma reach_inv s : reach s -> inv s.
Proof.
  intros [(n & m & l & H)|[l H]]; [exact (runs_inv l (split_inv n m) H)|exact (runs_inv l es_inv H)].
Qed.
