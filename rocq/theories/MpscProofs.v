(** * MpscProofs: invariant of the intrusive MPSC queue. *)
From Coq Require Import List Arith Bool Lia ZArith.
From Verif Require Import Conc QueueModel QueueProofs MpscModel.
Import ListNotations.
Set Implicit Arguments.
#[local] Arguments Z.add : simpl never.
#[local] Arguments Z.sub : simpl never.
#[local] Arguments Z.of_nat : simpl never.

(** histories, oldest first *)
Fixpoint enqs (l : list event) : list nat :=
  match l with [] => [] | EEnq n :: l => enqs l ++ [n] | _ :: l => enqs l end.
Fixpoint deqs (l : list event) : list nat :=
  match l with [] => [] | EDeq n :: l => deqs l ++ [n] | _ :: l => deqs l end.
Definition is_enq n e := match e with EEnq m => n =? m | _ => false end.
Definition is_link n e := match e with ELink m _ => n =? m | _ => false end.
Definition is_call e := match e with ECall => true | _ => false end.

(** a push has exchanged but not yet linked *)
Definition pushing (l : list event) : Prop := exists n, cnt (is_link n) l < cnt (is_enq n) l.
(** a push was in progress at some moment since the last call of pop_front *)
Definition was_pushing (l : list event) : Prop :=
  exists a b, l = a ++ b /\ cnt is_call a = 0 /\ pushing b.

Definition zc (x : nat) (l : list nat) : Z := Z.of_nat (cnt (Nat.eqb x) l).
Definition wown (x : nat) (p : pc) : Z :=
  match p with PNull n | PXchg n => if Nat.eqb x n then 1 else 0 | _ => 0 end%Z.
Definition wlink (x : nat) (p : pc) : Z :=
  match p with PLink _ n => if Nat.eqb x n then 1 else 0 | _ => 0 end%Z.
Definition wstub (c : cpc) : Z := match c with C4 | C5 => 1 | _ => 0 end%Z.
Definition nonstub (l : list nat) := filter (fun n => negb (n =? stub)) l.

Definition adj (a b : nat) (c : list nat) := exists l r, c = l ++ a :: b :: r.
Definition pend (s : state) (a b : nat) : Prop :=
  (exists t, nth_error (thr s) t = Some (PLink a b)) \/ (con s = C6 a /\ b = stub).
Definition past (c : cpc) := match c with CIdle | C0 => False | _ => True end.

Record inv (s : state) : Prop := {
  i_tail : exists r, chain s = tail s :: r;
  i_head : exists l, chain s = l ++ [head s];
  i_adj : forall a b, adj a b (chain s) ->
            next s a = Some b \/ (next s a = None /\ pend s a b);
  i_last : next s (head s) = None;
  i_pend : forall a b, pend s a b -> adj a b (chain s) /\ next s a = None;
  i_uniq : forall t u a b n, nth_error (thr s) t = Some (PLink a n) ->
            nth_error (thr s) u = Some (PLink b n) -> t = u;
  i_own : forall x, x <> stub ->
            (zc x (chain s) + sumz (wown x) (thr s) = if busy s x then 1 else 0)%Z;
  i_stub : (zc stub (chain s) + wstub (con s) <= 1)%Z;
  i_ns : forall t p, nth_error (thr s) t = Some p ->
            match p with PNull n | PXchg n | PLink _ n => n <> stub | Idle => True end;
  i_xchg : forall t n, nth_error (thr s) t = Some (PXchg n) -> next s n = None;
  i_c5 : con s = C5 -> next s stub = None;
  i_past : past (con s) -> tail s <> stub;
  i_c7 : con s = C7 -> In stub (chain s);
  i_fifo : enqs (log s) = deqs (log s) ++ nonstub (chain s);
  i_cnt : forall n, (Z.of_nat (cnt (is_enq n) (log s)) =
            Z.of_nat (cnt (is_link n) (log s)) + sumz (wlink n) (thr s))%Z;
  i_c3 : con s = C3 -> tail s = head s \/ was_pushing (log s) }.

Lemma wown_nonneg x p : (0 <= wown x p)%Z. Proof. destruct p; simpl; try lia; destruct (x =? n); lia. Qed.
Lemma wlink_nonneg x p : (0 <= wlink x p)%Z. Proof. destruct p; simpl; try lia; destruct (x =? n); lia. Qed.
Lemma zc_nonneg x l : (0 <= zc x l)%Z. Proof. unfold zc; lia. Qed.
Lemma zc_app x a b : zc x (a ++ b) = (zc x a + zc x b)%Z.
Proof. unfold zc. rewrite cnt_app. lia. Qed.
Lemma zc_cons x a b : zc x (a :: b) = ((if Nat.eqb x a then 1 else 0) + zc x b)%Z.
Proof. unfold zc. simpl. destruct (x =? a); lia. Qed.
Lemma zc_nil x : zc x [] = 0%Z. Proof. reflexivity. Qed.
Lemma zc_in x l : In x l <-> (0 < zc x l)%Z.
Proof.
  unfold zc. assert (E : In x l <-> 0 < cnt (Nat.eqb x) l); [|rewrite E; lia].
  rewrite cnt_pos. split; [intros H; exists x; rewrite Nat.eqb_refl; auto|].
  intros [y [H1 H2]]. apply Nat.eqb_eq in H2; subst; auto.
Qed.
Lemma zc_nodup l : (forall x, (zc x l <= 1)%Z) -> NoDup l.
Proof.
  induction l as [|x l IH]; intros H; constructor.
  - intros K. apply zc_in in K. specialize (H x). rewrite zc_cons, Nat.eqb_refl in H. lia.
  - apply IH. intros y. specialize (H y). rewrite zc_cons in H. destruct (y =? x); lia.
Qed.

Section D.
Variable s : state.
Hypothesis I : inv s.
Lemma chain_nodup : NoDup (chain s).
Proof.
  apply zc_nodup. intros x. destruct (Nat.eq_dec x stub) as [->|N].
  - pose proof (i_stub I). destruct (con s); simpl in *; lia.
  - pose proof (i_own I N). pose proof (sumz_nonneg (wown x) (thr s) (wown_nonneg x)).
    destruct (busy s x); lia.
Qed.
Lemma own_chain x t p : nth_error (thr s) t = Some p -> (0 < wown x p)%Z -> x <> stub -> In x (chain s) -> False.
Proof.
  intros Ht Hp N Hg. apply zc_in in Hg. pose proof (i_own I N).
  pose proof (sumz_ge (wown x) (thr s) (wown_nonneg x) t Ht). destruct (busy s x); lia.
Qed.
Lemma own_busy x t p : nth_error (thr s) t = Some p -> (0 < wown x p)%Z -> x <> stub -> busy s x = true.
Proof.
  intros Ht Hp N. pose proof (i_own I N).
  pose proof (sumz_ge (wown x) (thr s) (wown_nonneg x) t Ht). pose proof (zc_nonneg x (chain s)).
  destruct (busy s x); auto; lia.
Qed.
Lemma chain_busy x : In x (chain s) -> x <> stub -> busy s x = true.
Proof.
  intros Hg N. apply zc_in in Hg. pose proof (i_own I N).
  pose proof (sumz_nonneg (wown x) (thr s) (wown_nonneg x)). destruct (busy s x); auto; lia.
Qed.
Lemma own_disj x t u p q : t <> u -> nth_error (thr s) t = Some p -> nth_error (thr s) u = Some q ->
  (0 < wown x p)%Z -> (0 < wown x q)%Z -> x <> stub -> False.
Proof.
  intros N Ht Hu Hp Hq Nx. pose proof (i_own I Nx). pose proof (zc_nonneg x (chain s)).
  pose proof (sumz_ge2 (wown x) (thr s) (wown_nonneg x) N Ht Hu). destruct (busy s x); lia.
Qed.
Lemma link_pushing t a b : nth_error (thr s) t = Some (PLink a b) -> pushing (log s).
Proof.
  intros H. exists b. pose proof (i_cnt I b). pose proof (sumz_ge (wlink b) (thr s) (wlink_nonneg b) t H).
  simpl in *. rewrite Nat.eqb_refl in *. lia.
Qed.
End D.

Lemma adj_in a b c : adj a b c -> In a c /\ In b c.
Proof. intros (l & r & ->). split; apply in_or_app; simpl; auto. Qed.
Lemma adj_cons a b x y r : adj a b (x :: y :: r) <-> (a = x /\ b = y) \/ adj a b (y :: r).
Proof.
  split.
  - intros ([|z l] & w & E); simpl in E; inversion E; subst; auto. right. exists l, w; auto.
  - intros [[-> ->]|(l & w & E)]; [exists [], r; auto|]. exists (x :: l), w. simpl. rewrite <- E; auto.
Qed.
Lemma adj_nil a b x : ~ adj a b [x].
Proof. intros ([|y [|z l]] & r & E); discriminate. Qed.
Lemma adj_uniq_l a b b' c : NoDup c -> adj a b c -> adj a b' c -> b = b'.
Proof.
  induction c as [|x c IH]; intros ND H H'; [destruct (adj_in H); contradiction|].
  destruct c as [|y c]; [destruct (adj_nil H)|].
  inversion ND as [|? ? N ND']; subst.
  apply adj_cons in H, H'. destruct H as [[-> ->]|H], H' as [[E E']|H']; subst; auto;
    apply adj_in in H || apply adj_in in H'; tauto.
Qed.
Lemma adj_uniq_r a a' b c : NoDup c -> adj a b c -> adj a' b c -> a = a'.
Proof.
  induction c as [|x c IH]; intros ND H H'; [destruct (adj_in H); contradiction|].
  destruct c as [|y c]; [destruct (adj_nil H)|].
  inversion ND as [|? ? N ND']; subst.
  assert (K : forall z, ~ adj z y (y :: c)).
  { intros z K. destruct c as [|w c]; [destruct (adj_nil K)|]. apply adj_cons in K.
    inversion ND'; subst. destruct K as [[-> ->]|K]; [simpl in *; tauto|].
    apply adj_in in K; tauto. }
  apply adj_cons in H, H'. destruct H as [[-> ->]|H], H' as [[E E']|H']; subst; auto.
  - destruct (K _ H').
  - destruct (K _ H).
Qed.
Lemma adj_snoc a b c h x : c = x ++ [h] -> forall n, adj a b (c ++ [n]) <-> adj a b c \/ (a = h /\ b = n).
Proof.
  intros -> n. split.
  - intros (l & r & E).
    destruct (@exists_last _ (a :: b :: r)) as [w [z W]]; [discriminate|].
    rewrite W in E. rewrite app_assoc in E.
    apply app_inj_tail in E. destruct E as [E <-].
    destruct w as [|w0 w]; [discriminate|]. simpl in W. inversion W; subst w0.
    destruct w as [|w1 w].
    + simpl in *. inversion H1; subst. right. apply app_inj_tail in E. destruct E; auto.
    + simpl in H1. inversion H1; subst. left. exists l, w. rewrite E. auto.
  - intros [(l & r & E)|[-> ->]].
    + exists l, (r ++ [n]). rewrite E, <- app_assoc. auto.
    + exists x, []. rewrite <- app_assoc. auto.
Qed.
Lemma was_pushing_cons e l : is_call e = false -> was_pushing l -> was_pushing (e :: l).
Proof. intros H (a & b & -> & H1 & H2). exists (e :: a), b. simpl. rewrite H. auto. Qed.
Lemma was_pushing_now l : pushing l -> was_pushing l.
Proof. intros H. exists [], l. auto. Qed.

Lemma enqs_snoc_not l e : (forall n, e <> EEnq n) -> enqs (e :: l) = enqs l.
Proof. destruct e; simpl; auto. intros H; destruct (H n); auto. Qed.

Lemma inv_init k h : inv (init k h).
Proof.
  assert (N : forall t p, nth_error (repeat Idle k) t = Some p -> p = Idle) by (intros t p; apply nth_repeat_some).
  constructor; simpl; try discriminate; try tauto.
  - exists []; auto.
  - exists []; auto.
  - intros a b H. destruct (adj_nil H).
  - intros a b [[t H]|[H _]]; [apply N in H|]; discriminate.
  - intros t u a b n H. apply N in H; discriminate.
  - intros x Hx. rewrite sumz_repeat; auto. rewrite zc_cons, zc_nil.
    destruct (Nat.eqb_spec x stub); tauto.
  - intros t p H. apply N in H. subst; auto.
  - intros t n H. apply N in H. discriminate.
  - intros n. rewrite sumz_repeat; auto.
Qed.

(** a step of the producer t from p to p' that does not involve the chain and writes at most a
    node n that is not in the chain *)
Lemma inv_local s t p p' (h' : nat -> ptr) (b : nat -> bool) : inv s -> nth_error (thr s) t = Some p ->
  (forall a n, p <> PLink a n) -> (forall a n, p' <> PLink a n) ->
  match p' with PNull n | PXchg n => n <> stub | _ => True end ->
  (forall x, h' x = next s x \/ ~ In x (chain s) /\ x <> stub /\
     (forall u, u <> t -> nth_error (thr s) u <> Some (PXchg x))) ->
  (forall n, p' = PXchg n -> h' n = None) ->
  (forall x, x <> stub -> wown x p' - wown x p = (if b x then 1 else 0) - (if busy s x then 1 else 0))%Z ->
  inv {| head := head s; tail := tail s; next := h'; thr := upd (thr s) t p'; con := con s;
         log := log s; busy := b; chain := chain s |}.
Proof.
  intros I Ht Np Np' Ns F X B.
  assert (PE : forall a m, pend {| head := head s; tail := tail s; next := h'; thr := upd (thr s) t p'; con := con s;
         log := log s; busy := b; chain := chain s |} a m <-> pend s a m).
  { intros a m. unfold pend. simpl. split; (intros [[u Hu]|H]; [left; exists u|right; auto]).
    - rewrite (nth_upd _ _ _ _ Ht) in Hu. destruct (Nat.eqb_spec t u); auto.
      inversion Hu; subst. destruct (Np' a m); auto.
    - rewrite (nth_upd _ _ _ _ Ht). destruct (Nat.eqb_spec t u); auto; subst.
      rewrite Ht in Hu. inversion Hu; subst. destruct (Np a m); auto. }
  assert (FC : forall x, In x (chain s) -> h' x = next s x).
  { intros x Hx. destruct (F x) as [E|E]; tauto. }
  constructor; simpl.
  - apply (i_tail I).
  - apply (i_head I).
  - intros a m H. rewrite PE, FC by (apply adj_in in H; tauto). apply (i_adj I H).
  - rewrite FC; [apply (i_last I)|]. destruct (i_head I) as [l E]. rewrite E. apply in_or_app; simpl; auto.
  - intros a m H. apply PE in H. pose proof (i_pend I H) as [H1 H2]. split; auto.
    rewrite FC; auto. apply adj_in in H1; tauto.
  - intros u v a c n Hu Hv. rewrite (nth_upd _ _ _ _ Ht) in Hu; rewrite (nth_upd _ _ _ _ Ht) in Hv.
    destruct (t =? u); [inversion Hu; destruct (Np' a n); auto|].
    destruct (t =? v); [inversion Hv; destruct (Np' c n); auto|]. apply (i_uniq I _ _ Hu Hv).
  - intros x Hx. rewrite (sumz_upd _ _ _ p' Ht). pose proof (i_own I Hx). specialize (B x Hx). lia.
  - apply (i_stub I).
  - intros u q Hu. rewrite (nth_upd _ _ _ _ Ht) in Hu. destruct (t =? u).
    + inversion Hu; subst. destruct q; auto. destruct (Np' prev n); auto.
    + apply (i_ns I _ Hu).
  - intros u n Hu. rewrite (nth_upd _ _ _ _ Ht) in Hu. destruct (Nat.eqb_spec t u).
    + inversion Hu; subst. auto.
    + destruct (F n) as [->|(H1 & H2 & H3)]; [apply (i_xchg I _ Hu)|]. destruct (H3 u); auto.
  - intros Hc. destruct (F stub) as [->|(H1 & H2 & H3)]; [apply (i_c5 I Hc)|tauto].
  - apply (i_past I).
  - apply (i_c7 I).
  - apply (i_fifo I).
  - intros n. rewrite (sumz_upd _ _ _ p' Ht). pose proof (i_cnt I n).
    assert (wlink n p = 0 /\ wlink n p' = 0)%Z as [-> ->]; [|lia].
    split; [destruct p|destruct p']; auto; [destruct (Np prev n0)|destruct (Np' prev n0)]; auto.
  - apply (i_c3 I).
Qed.

Lemma head_in s : inv s -> In (head s) (chain s).
Proof. intros I. destruct (i_head I) as [l E]. rewrite E. apply in_or_app; simpl; auto. Qed.
Lemma tail_in s : inv s -> In (tail s) (chain s).
Proof. intros I. destruct (i_tail I) as [l E]. rewrite E. simpl; auto. Qed.
Lemma nonstub_app a b : nonstub (a ++ b) = nonstub a ++ nonstub b.
Proof. apply filter_app. Qed.

Lemma inv_xchg s t n : inv s -> nth_error (thr s) t = Some (PXchg n) ->
  inv (w_log (w_thr (w_chain (w_head s n) (chain s ++ [n])) t (PLink (head s) n)) (EEnq n)).
Proof.
  intros I Ht. pose proof (i_ns I _ Ht) as Ns. simpl in Ns.
  assert (Nn : ~ In n (chain s)).
  { intros K. apply (own_chain I _ Ht (x := n)) in K; auto. simpl. rewrite Nat.eqb_refl; lia. }
  destruct (i_head I) as [l El].
  assert (AD : forall a b, adj a b (chain s ++ [n]) <-> adj a b (chain s) \/ (a = head s /\ b = n)).
  { intros a b. eapply adj_snoc; exact El. }
  assert (NL : forall u a, nth_error (thr s) u <> Some (PLink a n)).
  { intros u a Hu. assert (P : pend s a n) by (left; eauto). apply (i_pend I) in P.
    destruct P as [P _]. apply adj_in in P. tauto. }
  constructor; simpl.
  - destruct (i_tail I) as [r ->]. simpl. eauto.
  - eauto.
  - intros a b H. apply AD in H. destruct H as [H|[-> ->]].
    + destruct (i_adj I H) as [H1|[H1 [[u Hu]|Hc]]]; auto; right; split; auto.
      * left. exists u. simpl. rewrite (nth_upd _ _ _ _ Ht). destruct (Nat.eqb_spec t u); auto.
        subst. congruence.
      * right; auto.
    + right. split; [apply (i_last I)|]. left. exists t. simpl. rewrite (nth_upd _ _ _ _ Ht), Nat.eqb_refl; auto.
  - apply (i_xchg I _ Ht).
  - intros a b [[u Hu]|Hc]; simpl in *.
    + rewrite (nth_upd _ _ _ _ Ht) in Hu. destruct (Nat.eqb_spec t u).
      * inversion Hu; subst. split; [apply AD; auto|apply (i_last I)].
      * assert (P : pend s a b) by (left; eauto). apply (i_pend I) in P. rewrite AD. tauto.
    + assert (P : pend s a b) by (right; auto). apply (i_pend I) in P. rewrite AD. tauto.
  - intros u v a b m Hu Hv. rewrite (nth_upd _ _ _ _ Ht) in Hu; rewrite (nth_upd _ _ _ _ Ht) in Hv.
    destruct (Nat.eqb_spec t u), (Nat.eqb_spec t v); subst; auto.
    + inversion Hu; subst. destruct (NL v b); auto.
    + inversion Hv; subst. destruct (NL u a); auto.
    + apply (i_uniq I _ _ Hu Hv).
  - intros x Hx. rewrite (sumz_upd _ _ _ _ Ht), zc_app, zc_cons, zc_nil. pose proof (i_own I Hx). simpl. lia.
  - rewrite zc_app, zc_cons, zc_nil. pose proof (i_stub I). destruct (Nat.eqb_spec stub n); [subst; tauto|lia].
  - intros u q Hu. rewrite (nth_upd _ _ _ _ Ht) in Hu. destruct (t =? u).
    + inversion Hu; subst; auto.
    + apply (i_ns I _ Hu).
  - intros u m Hu. rewrite (nth_upd _ _ _ _ Ht) in Hu. destruct (t =? u); [discriminate|]. apply (i_xchg I _ Hu).
  - apply (i_c5 I).
  - apply (i_past I).
  - intros H. apply in_or_app. left. apply (i_c7 I H).
  - rewrite (i_fifo I), nonstub_app, app_assoc. simpl. destruct (Nat.eqb_spec n stub); [tauto|auto].
  - intros m. rewrite (sumz_upd _ _ _ _ Ht). pose proof (i_cnt I m). simpl.
    destruct (m =? n); lia.
  - intros Hc. right. apply was_pushing_now. exists n. simpl. rewrite Nat.eqb_refl.
    pose proof (i_cnt I n). pose proof (sumz_nonneg (wlink n) (thr s) (wlink_nonneg n)). lia.
Qed.

Lemma fset_none (f : nat -> ptr) x v y : fset f x v y = None -> v <> None -> f y = f y /\ y <> x /\ f y = None.
Proof. unfold fset. destruct (Nat.eqb_spec y x); intros; subst; tauto. Qed.

Lemma inv_link s t p n : inv s -> nth_error (thr s) t = Some (PLink p n) ->
  inv (w_log (w_thr (w_next s p (Some n)) t Idle) (ELink n (p =? stub))).
Proof.
  intros I Ht. pose proof (i_ns I _ Ht) as Ns. simpl in Ns.
  assert (P : pend s p n) by (left; eauto). apply (i_pend I) in P. destruct P as [Ap Np].
  pose proof (chain_nodup I) as ND.
  destruct (adj_in Ap) as [Ip In_].
  assert (Nh : head s <> p).
  { intros E. destruct (i_head I) as [l El]. rewrite E in El.
    destruct Ap as (a & b & Ab). rewrite El in Ab, ND.
    destruct (@exists_last _ (n :: b)) as [w [z W]]; [discriminate|].
    rewrite W in Ab. change (p :: w ++ [z]) with ((p :: w) ++ [z]) in Ab. rewrite app_assoc in Ab.
    apply app_inj_tail in Ab. destruct Ab as [-> ->].
    apply NoDup_app_iff in ND. destruct ND as (_ & _ & D). apply (D z); [|simpl; auto].
    apply in_or_app; simpl; auto. }
  assert (PO : forall a b, pend (w_log (w_thr (w_next s p (Some n)) t Idle) (ELink n (p =? stub))) a b ->
                 pend s a b /\ a <> p).
  { intros a b [[u Hu]|[Hc Hb]]; simpl in *.
    - rewrite (nth_upd _ _ _ _ Ht) in Hu. destruct (Nat.eqb_spec t u) as [E|E]; [discriminate|].
      split; [left; eauto|]. intros ->. assert (Q : pend s p b) by (left; eauto).
      apply (i_pend I) in Q. destruct Q as [Q _]. pose proof (adj_uniq_l ND Ap Q). subst b.
      apply E. apply (i_uniq I _ _ Ht Hu).
    - subst. split; [right; auto|]. intros ->. assert (Q : pend s p stub) by (right; auto).
      apply (i_pend I) in Q. destruct Q as [Q _]. pose proof (adj_uniq_l ND Ap Q). auto. }
  constructor; simpl.
  - apply (i_tail I).
  - apply (i_head I).
  - intros a b H. destruct (Nat.eq_dec a p) as [->|E].
    + pose proof (adj_uniq_l ND Ap H). subst. rewrite fset_same; auto.
    + rewrite fset_other by auto. destruct (i_adj I H) as [H1|[H1 [[u Hu]|Hc]]]; auto; right; split; auto.
      * left. exists u. simpl. rewrite (nth_upd _ _ _ _ Ht). destruct (Nat.eqb_spec t u); auto.
        subst. congruence.
      * right; auto.
  - rewrite fset_other by auto. apply (i_last I).
  - intros a b H. apply PO in H. destruct H as [H E]. rewrite fset_other by auto. apply (i_pend I H).
  - intros u v a b m Hu Hv. rewrite (nth_upd _ _ _ _ Ht) in Hu; rewrite (nth_upd _ _ _ _ Ht) in Hv.
    destruct (t =? u), (t =? v); try discriminate. apply (i_uniq I _ _ Hu Hv).
  - intros x Hx. rewrite (sumz_upd _ _ _ _ Ht). pose proof (i_own I Hx). simpl. lia.
  - apply (i_stub I).
  - intros u q Hu. rewrite (nth_upd _ _ _ _ Ht) in Hu. destruct (t =? u).
    + inversion Hu; subst; auto.
    + apply (i_ns I _ Hu).
  - intros u m Hu. rewrite (nth_upd _ _ _ _ Ht) in Hu. destruct (t =? u); [discriminate|].
    rewrite fset_other; [apply (i_xchg I _ Hu)|]. intros ->.
    apply (own_chain I _ Hu (x := p)); auto; [simpl; rewrite Nat.eqb_refl; lia|apply (i_ns I _ Hu)].
  - intros Hc. rewrite fset_other; [apply (i_c5 I Hc)|]. intros <-.
    apply zc_in in Ip. pose proof (i_stub I). rewrite Hc in *. simpl in *. lia.
  - apply (i_past I).
  - apply (i_c7 I).
  - apply (i_fifo I).
  - intros m. rewrite (sumz_upd _ _ _ _ Ht). pose proof (i_cnt I m). simpl. destruct (m =? n); lia.
  - intros Hc. destruct (i_c3 I Hc); auto. right. apply was_pushing_cons; auto.
Qed.

Lemma inv_write s n v : inv s -> busy s n = false -> n <> stub -> inv (w_next s n v).
Proof.
  intros I Hb Hs.
  assert (Nc : ~ In n (chain s)) by (intros K; apply (chain_busy I) in K; congruence).
  assert (FC : forall x, In x (chain s) -> fset (next s) n v x = next s x).
  { intros x Hx. apply fset_other. intros ->. auto. }
  constructor; simpl.
  - apply (i_tail I).
  - apply (i_head I).
  - intros a b H. rewrite FC by (apply adj_in in H; tauto). apply (i_adj I H).
  - rewrite FC by (apply head_in; auto). apply (i_last I).
  - intros a b H. pose proof (i_pend I (a := a) (b := b) H) as [H1 H2]. split; auto.
    rewrite FC; auto. apply adj_in in H1; tauto.
  - apply (i_uniq I).
  - apply (i_own I).
  - apply (i_stub I).
  - apply (i_ns I).
  - intros t m Ht. rewrite fset_other; [apply (i_xchg I _ Ht)|]. intros ->.
    rewrite (own_busy I _ Ht (x := n)) in Hb; [discriminate| |auto]. simpl. rewrite Nat.eqb_refl; lia.
  - intros H. rewrite fset_other by auto. apply (i_c5 I H).
  - apply (i_past I).
  - apply (i_c7 I).
  - apply (i_fifo I).
  - apply (i_cnt I).
  - apply (i_c3 I).
Qed.

(** the consumer moves to a program point c that is not C6, possibly logging a non-enqueue event *)
Lemma inv_con s c lg : inv s -> (forall p, con s <> C6 p) -> (forall p, c <> C6 p) ->
  (wstub c <= wstub (con s) \/ c = C4 /\ ~ In stub (chain s))%Z -> c <> C5 -> c <> C7 ->
  (past c -> tail s <> stub) ->
  (c = C3 -> tail s = head s \/ was_pushing lg) ->
  lg = log s \/ lg = ECall :: log s \/ lg = ENull :: log s ->
  inv {| head := head s; tail := tail s; next := next s; thr := thr s; con := c;
         log := lg; busy := busy s; chain := chain s |}.
Proof.
  intros I N N' W N5 N7 P C L.
  assert (PE : forall a m, pend {| head := head s; tail := tail s; next := next s; thr := thr s; con := c;
         log := lg; busy := busy s; chain := chain s |} a m <-> pend s a m).
  { intros a m. unfold pend. simpl. split; (intros [H|[H _]]; [left; auto|]); [destruct (N' a)|destruct (N a)]; auto. }
  constructor; simpl; try apply I; auto; try tauto.
  - intros a b H. rewrite PE. apply (i_adj I H).
  - intros a b H. rewrite PE in H. apply (i_pend I H).
  - destruct W as [W|[-> W]].
    + pose proof (i_stub I). lia.
    + simpl. destruct (Z_lt_le_dec 0 (zc stub (chain s))) as [K|K]; [apply zc_in in K; tauto|lia].
  - destruct L as [-> |[-> | ->]]; simpl; apply (i_fifo I).
  - destruct L as [-> |[-> | ->]]; simpl; apply (i_cnt I).
Qed.

Lemma inv_advance s nx c b lg : inv s -> next s (tail s) = Some nx -> (forall p, con s <> C6 p) ->
  (c = C1 /\ tail s = stub /\ lg = log s /\ b = busy s) \/
  (c = CIdle /\ tail s <> stub /\ lg = EDeq (tail s) :: log s /\ b = fset (busy s) (tail s) false) ->
  inv {| head := head s; tail := nx; next := next s; thr := thr s; con := c;
         log := lg; busy := b; chain := List.tl (chain s) |}.
Proof.
  intros I Hn N6 Hc. pose proof (chain_nodup I) as ND.
  destruct (i_tail I) as [r Er]. rewrite Er. simpl.
  destruct (i_head I) as [l El].
  assert (exists r', r = nx :: r') as [r' ->].
  { destruct r as [|y r'].
    - assert (E : head s = tail s). { rewrite El in Er. destruct l as [|? [|]]; inversion Er; auto. }
      pose proof (i_last I). congruence.
    - assert (A : adj (tail s) y (chain s)) by (rewrite Er; exists [], r'; auto).
      destruct (i_adj I A) as [E|[E _]]; [|congruence]. exists r'. congruence. }
  rewrite Er in ND. inversion ND as [|? ? Nt ND']; subst.
  assert (SP : forall a m, pend s a m -> adj a m (nx :: r')).
  { intros a m P. pose proof (i_pend I P) as [A Na]. rewrite Er in A. apply adj_cons in A.
    destruct A as [[-> ->]|A]; auto. congruence. }
  assert (PE : forall a m, pend {| head := head s; tail := nx; next := next s; thr := thr s; con := c;
         log := lg; busy := b; chain := nx :: r' |} a m <-> pend s a m).
  { intros a m. unfold pend. simpl. split; (intros [H|[H _]]; [left; auto|]).
    - destruct Hc as [(-> & _)|(-> & _)]; discriminate.
    - destruct (N6 a); auto. }
  constructor; simpl.
  - eauto.
  - rewrite El in Er. destruct l as [|y l]; simpl in Er; inversion Er; subst. eauto.
  - intros a m H. rewrite PE. apply (i_adj I). rewrite Er. apply adj_cons; auto.
  - apply (i_last I).
  - intros a m H. apply PE in H. split; [apply SP; auto|apply (i_pend I H)].
  - apply (i_uniq I).
  - intros x Hx. pose proof (i_own I Hx) as O. rewrite Er, zc_cons in O.
    destruct Hc as [(_ & Et & _ & ->)|(_ & Et & _ & ->)].
    + rewrite Et in O. destruct (Nat.eqb_spec x stub); [tauto|lia].
    + unfold fset. destruct (Nat.eqb_spec x (tail s)) as [->|]; [|lia].
      destruct (busy s (tail s)); pose proof (zc_nonneg (tail s) (nx :: r'));
      pose proof (sumz_nonneg (wown (tail s)) (thr s) (wown_nonneg (tail s))); lia.
  - pose proof (i_stub I) as O. rewrite Er, zc_cons in O.
    destruct Hc as [(-> & Et & _)|(-> & Et & _)]; simpl wstub; destruct (con s); simpl wstub in O; destruct (stub =? tail s); lia.
  - apply (i_ns I).
  - apply (i_xchg I).
  - destruct Hc as [(-> & Et & _)|(-> & Et & _)]; discriminate.
  - destruct Hc as [(-> & Et & _)|(-> & Et & _)]; simpl; [|tauto]. intros _ ->.
    apply Nt. rewrite Et. simpl; auto.
  - destruct Hc as [(-> & Et & _)|(-> & Et & _)]; discriminate.
  - pose proof (i_fifo I) as F. rewrite Er in F. simpl in F.
    destruct Hc as [(_ & Et & -> & _)|(_ & Et & -> & _)]; simpl.
    + rewrite Et in F. exact F.
    + destruct (Nat.eqb_spec (tail s) stub); [tauto|]. rewrite F. simpl. rewrite <- app_assoc. auto.
  - destruct Hc as [(_ & Et & -> & _)|(_ & Et & -> & _)]; simpl; apply (i_cnt I).
  - destruct Hc as [(-> & Et & _)|(-> & Et & _)]; discriminate.
Qed.

Lemma inv_c4 s : inv s -> con s = C4 -> inv (w_con (w_next s stub None) C5).
Proof.
  intros I Hc.
  assert (Nc : ~ In stub (chain s)).
  { intros K. apply zc_in in K. pose proof (i_stub I). rewrite Hc in *. simpl in *. lia. }
  assert (FC : forall x, In x (chain s) -> fset (next s) stub None x = next s x).
  { intros x Hx. apply fset_other. intros ->. auto. }
  assert (PE : forall a m, pend (w_con (w_next s stub None) C5) a m <-> pend s a m).
  { intros a m. unfold pend. simpl. rewrite Hc. split; (intros [H|[H _]]; [left; auto|discriminate]). }
  constructor; simpl; try apply I; try discriminate.
  - intros a b H. rewrite PE, FC by (apply adj_in in H; tauto). apply (i_adj I H).
  - rewrite FC by (apply head_in; auto). apply (i_last I).
  - intros a b H. apply PE in H. pose proof (i_pend I H) as [H1 H2]. split; auto.
    rewrite FC; auto. apply adj_in in H1; tauto.
  - pose proof (i_stub I). rewrite Hc in *. simpl in *. lia.
  - intros t m Ht. rewrite fset_other; [apply (i_xchg I _ Ht)|]. apply (i_ns I _ Ht).
  - intros _. apply fset_same.
  - intros _. apply (i_past I). rewrite Hc. simpl; auto.
Qed.

Lemma inv_c5 s : inv s -> con s = C5 ->
  inv (w_con (w_chain (w_head s stub) (chain s ++ [stub])) (C6 (head s))).
Proof.
  intros I Hc.
  assert (Nc : ~ In stub (chain s)).
  { intros K. apply zc_in in K. pose proof (i_stub I). rewrite Hc in *. simpl in *. lia. }
  destruct (i_head I) as [l El].
  assert (AD : forall a b, adj a b (chain s ++ [stub]) <-> adj a b (chain s) \/ (a = head s /\ b = stub)).
  { intros a b. eapply adj_snoc; exact El. }
  constructor; simpl; try discriminate.
  - destruct (i_tail I) as [r ->]. simpl. eauto.
  - eauto.
  - intros a b H. apply AD in H. destruct H as [H|[-> ->]].
    + destruct (i_adj I H) as [H1|[H1 [Hu|[Hu _]]]]; auto; [|congruence]. right; split; auto. left; auto.
    + right. split; [apply (i_last I)|]. right. auto.
  - apply (i_c5 I Hc).
  - intros a b [[u Hu]|[Hu ->]]; simpl in *.
    + assert (P : pend s a b) by (left; eauto). apply (i_pend I) in P. rewrite AD. tauto.
    + inversion Hu; subst. rewrite AD. split; auto. apply (i_last I).
  - apply (i_uniq I).
  - intros x Hx. rewrite zc_app, zc_cons, zc_nil. pose proof (i_own I Hx).
    destruct (Nat.eqb_spec x stub); [tauto|lia].
  - rewrite zc_app. pose proof (i_stub I). rewrite Hc in *.
    change (zc stub [stub]) with 1%Z. simpl wstub in *. lia.
  - apply (i_ns I).
  - apply (i_xchg I).
  - intros _. apply (i_past I). rewrite Hc. simpl; auto.
  - rewrite nonstub_app. simpl. rewrite app_nil_r. apply (i_fifo I).
  - apply (i_cnt I).
Qed.

Lemma adj_not_last a b c h l : NoDup c -> c = l ++ [h] -> adj a b c -> a <> h.
Proof.
  intros ND El (u & v & Ab) ->. rewrite El in Ab, ND.
  destruct (@exists_last _ (b :: v)) as [w [z W]]; [discriminate|].
  rewrite W in Ab. change (h :: w ++ [z]) with ((h :: w) ++ [z]) in Ab. rewrite app_assoc in Ab.
  apply app_inj_tail in Ab. destruct Ab as [-> ->].
  apply NoDup_app_iff in ND. destruct ND as (_ & _ & D). apply (D z); [|simpl; auto].
  apply in_or_app; simpl; auto.
Qed.

Lemma inv_c6 s p : inv s -> con s = C6 p -> inv (w_con (w_next s p (Some stub)) C7).
Proof.
  intros I Hc.
  assert (P : pend s p stub) by (right; auto). apply (i_pend I) in P. destruct P as [Ap Np].
  pose proof (chain_nodup I) as ND.
  destruct (adj_in Ap) as [Ip In_].
  assert (Nh : head s <> p).
  { destruct (i_head I) as [l El]. apply not_eq_sym. eapply adj_not_last; eauto. }
  assert (PO : forall a b, pend (w_con (w_next s p (Some stub)) C7) a b -> pend s a b /\ a <> p).
  { intros a b [[u Hu]|[E Hb]]; simpl in *; [|discriminate].
    split; [left; eauto|]. intros ->. assert (Q : pend s p b) by (left; eauto).
    apply (i_pend I) in Q. destruct Q as [Q _]. pose proof (adj_uniq_l ND Ap Q). subst b.
    apply (i_ns I _ Hu). auto. }
  constructor; simpl; try discriminate; auto.
  - apply (i_tail I).
  - apply (i_head I).
  - intros a b H. destruct (Nat.eq_dec a p) as [->|E].
    + pose proof (adj_uniq_l ND Ap H). subst. rewrite fset_same; auto.
    + rewrite fset_other by auto. destruct (i_adj I H) as [H1|[H1 [Hu|[Hu ->]]]]; auto.
      * right; split; auto. left; auto.
      * congruence.
  - rewrite fset_other by auto. apply (i_last I).
  - intros a b H. apply PO in H. destruct H as [H E]. rewrite fset_other by auto. apply (i_pend I H).
  - apply (i_uniq I).
  - apply (i_own I).
  - pose proof (i_stub I). rewrite Hc in *. simpl in *. lia.
  - apply (i_ns I).
  - intros u m Hu. rewrite fset_other; [apply (i_xchg I _ Hu)|]. intros ->.
    apply (own_chain I _ Hu (x := p)); auto; [simpl; rewrite Nat.eqb_refl; lia|apply (i_ns I _ Hu)].
  - intros _. apply (i_past I). rewrite Hc. simpl; auto.
  - apply (i_fifo I).
  - apply (i_cnt I).
Qed.

(** what a null read of the tail's link means *)
Lemma null_next s : inv s -> next s (tail s) = None -> (forall p, con s <> C6 p) ->
  (chain s = [tail s] /\ tail s = head s) \/ pushing (log s).
Proof.
  intros I Hn N6. destruct (i_tail I) as [r Er], (i_head I) as [l El]. destruct r as [|y r].
  - left. split; auto. rewrite El in Er. destruct l as [|? [|]]; inversion Er; auto.
  - right. assert (A : adj (tail s) y (chain s)) by (rewrite Er; exists [], r; auto).
    destruct (i_adj I A) as [E|[_ [[t Ht]|[E _]]]]; [congruence| |destruct (N6 (tail s)); auto].
    apply (link_pushing I _ Ht).
Qed.

Lemma inv_cons s s' : inv s -> cons_step s = Some s' -> inv s'.
Proof.
  intros I H. unfold cons_step in H. destruct (con s) eqn:Hc; try discriminate.
  - destruct (next s (tail s)) as [nx|] eqn:Hn; destruct (Nat.eqb_spec (tail s) stub) as [E|E]; inversion H; subst.
    + apply (@inv_advance s nx C1 (busy s) (log s)); auto; try congruence; tauto.
    + apply (@inv_advance s nx CIdle (fset (busy s) (tail s) false) (EDeq (tail s) :: log s)); auto; try congruence; tauto.
    + apply (@inv_con s CIdle (ENull :: log s)); auto; try discriminate; simpl; try tauto; try congruence.
      rewrite Hc. simpl. lia.
    + unfold w_con; simpl. apply inv_con; auto; try discriminate; simpl; try tauto; try congruence.
      * rewrite Hc. simpl. lia.
      * intros _. destruct (null_next I Hn) as [[K1 K2]|K]; try congruence; auto. right. apply was_pushing_now; auto.
  - assert (E : tail s <> stub) by (apply (i_past I); rewrite Hc; simpl; auto).
    destruct (next s (tail s)) as [nx|] eqn:Hn; inversion H; subst.
    + apply (@inv_advance s nx CIdle (fset (busy s) (tail s) false) (EDeq (tail s) :: log s)); auto; try congruence; tauto.
    + unfold w_con; simpl. apply inv_con; auto; try discriminate; simpl; try tauto; try congruence.
      * rewrite Hc. simpl. lia.
      * intros _. destruct (null_next I Hn) as [[K1 K2]|K]; try congruence; auto. right. apply was_pushing_now; auto.
  - assert (E : tail s <> stub) by (apply (i_past I); rewrite Hc; simpl; auto).
    destruct (Nat.eqb_spec (tail s) (head s)) as [Et|Et]; inversion H; subst.
    + unfold w_con; simpl. apply inv_con; auto; try discriminate; simpl; try tauto; try congruence.
      right. split; auto. intros K. destruct (i_tail I) as [r Er], (i_head I) as [l El].
      destruct l as [|y l].
      * rewrite El in K. simpl in K. intuition congruence.
      * pose proof (chain_nodup I) as ND. rewrite El in ND, Er. simpl in Er. inversion Er; subst.
        rewrite Et in ND. simpl in ND. inversion ND; subst. apply H2. apply in_or_app; simpl; auto.
    + apply (@inv_con s CIdle (ENull :: log s)); auto; try discriminate; simpl; try tauto; try congruence.
      rewrite Hc. simpl. lia.
  - inversion H; subst. apply inv_c4; auto.
  - inversion H; subst. apply inv_c5; auto.
  - inversion H; subst. apply inv_c6; auto.
  - assert (E : tail s <> stub) by (apply (i_past I); rewrite Hc; simpl; auto).
    destruct (next s (tail s)) as [nx|] eqn:Hn; inversion H; subst.
    + apply (@inv_advance s nx CIdle (fset (busy s) (tail s) false) (EDeq (tail s) :: log s)); auto; try congruence; tauto.
    + apply (@inv_con s CIdle (ENull :: log s)); auto; try discriminate; simpl; try tauto; try congruence.
      rewrite Hc. simpl. lia.
Qed.

Lemma inv_step s t a s' : inv s -> step t a s = Some s' -> inv s'.
Proof.
  intros I H. destruct a; simpl in H.
  - destruct (nth_error (thr s) t) as [[]|] eqn:Ht; try discriminate.
    destruct (busy s n) eqn:Hb; simpl in H; [discriminate|].
    destruct (Nat.eqb_spec n stub) as [E|E]; inversion H; subst.
    unfold w_thr, w_busy; simpl.
    apply (inv_local (t := t) (p := Idle) (p' := PNull n) (next s) (fset (busy s) n true) I Ht);
      try discriminate; auto.
    intros x Hx. simpl. unfold fset. destruct (Nat.eqb_spec x n); subst; [rewrite Hb|]; lia.
  - destruct (nth_error (thr s) t) as [[]|] eqn:Ht; inversion H; subst.
    + pose proof (i_ns I _ Ht) as Ns. simpl in Ns. unfold w_thr, w_next; simpl.
      apply (inv_local (t := t) (p := PNull n) (p' := PXchg n) (fset (next s) n None) (busy s) I Ht);
        try discriminate; auto.
      * intros x. unfold fset. destruct (Nat.eqb_spec x n); subst; auto. right.
        repeat split; auto.
        -- intros K. apply (own_chain I _ Ht (x := n)) in K; auto. simpl. rewrite Nat.eqb_refl; lia.
        -- intros u Hu K. apply (own_disj I (x := n) (not_eq_sym Hu) Ht K); auto;
             simpl; rewrite Nat.eqb_refl; lia.
      * intros m E. inversion E; subst. apply fset_same.
      * intros x Hx. simpl. lia.
    + apply inv_xchg; auto.
    + apply inv_link; auto.
  - destruct (con s) eqn:Hc; inversion H; subst. unfold w_log, w_con; simpl.
    apply inv_con; auto; try discriminate; simpl; try tauto; try congruence. rewrite Hc; simpl; lia.
  - eapply inv_cons; eauto.
  - destruct (busy s n) eqn:Hb; simpl in H; [discriminate|].
    destruct (Nat.eqb_spec n stub) as [E|E]; inversion H; subst. apply inv_write; auto.
Qed.

Lemma reachable_inv s : reachable s -> inv s.
Proof. induction 1; [apply inv_init|eapply inv_step; eauto]. Qed.
