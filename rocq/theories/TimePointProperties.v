(** C74: timed scheduling by means of the other operation, and time point arithmetic. *)
From Coq Require Import List ZArith Bool Lia.
From Verif Require Import TimePointModel.
Import ListNotations.
Set Implicit Arguments.
Open Scope Z_scope.

(** ** Specification *)
(** A steady clock shows real time up to a constant. *)
Definition steady (clock : Z -> Z) : Prop := exists o, forall t, clock t = t + o.
(** Steps of a use happen in order. *)
Definition ordered (u : use) : Prop := u_start u <= u_read u /\ u_read u <= u_call u /\ u_call u <= u_done u.
(** The contract of the scheduler's own operation: schedule_at never completes while its clock shows an earlier time;
    schedule_after never completes before the duration has passed since it was started. *)
Definition native (clock : Z -> Z) (a : ask) (u : use) : Prop :=
  match a with
  | AskAt tp => tp <= clock (u_done u)
  | AskAfter d => u_call u + d <= u_done u
  end.
(** A punctual one completes at the first instant its contract allows (on a steady clock). *)
Definition punctual (clock : Z -> Z) (a : ask) (u : use) : Prop :=
  native clock a u /\
  forall t, u_call u <= t -> match a with AskAt tp => tp <= clock t | AskAfter d => u_call u + d <= t end -> u_done u <= t.

(** ** The adapted operations keep the contract of the operation they stand for *)

(** schedule_after(d) made from schedule_at: never before d has passed since it was started - however long ago the sender was made -
    and with a punctual scheduler no later than the delay up to reading the clock, or at once if that is already past. *)
Theorem schedule_after_fallback_partial clock d u a :
  steady clock -> ordered u -> after_by_at clock d u = Some a -> native clock a u ->
  u_start u + d <= u_done u /\
  (punctual clock a u -> u_done u = Z.max (u_call u) (u_read u + d)).
Proof.
  intros [o C] (O1 & O2 & O3) A N. unfold after_by_at, chk in A. destruct (fits _); inversion A; subst; clear A. simpl in N.
  rewrite !C in N. split; [lia|]. intros [_ P].
  specialize (P (Z.max (u_call u) (u_read u + d))). simpl in P. rewrite !C in P.
  assert (u_done u <= Z.max (u_call u) (u_read u + d)) by (apply P; lia). lia.
Qed.

(** schedule_at(tp) made from schedule_after: never while the clock shows an earlier time;
    a punctual scheduler makes it late by exactly the delay between reading the clock and starting the native operation. *)
Theorem schedule_at_fallback_partial clock tp u a :
  steady clock -> ordered u -> at_by_after clock tp u = Some a -> native clock a u ->
  tp <= clock (u_done u) /\
  (punctual clock a u -> clock (u_done u) = Z.max (clock (u_call u)) (tp + (u_call u - u_read u))).
Proof.
  intros [o C] (O1 & O2 & O3) A N. unfold at_by_after, chk in A. destruct (fits _); inversion A; subst; clear A. simpl in N.
  rewrite !C in *. split; [lia|]. intros [_ P].
  specialize (P (Z.max (u_call u) (u_call u + (tp - (u_read u + o))))). simpl in P.
  assert (u_done u <= Z.max (u_call u) (u_call u + (tp - (u_read u + o)))) by (apply P; lia). lia.
Qed.

(** The request can be made exactly when the sum (the difference) fits the representation; then nothing else can go wrong in it. *)
Theorem fallback_defined clock x u :
  (after_by_at clock x u <> None <-> - 2 ^ 63 <= clock (u_read u) + x < 2 ^ 63) /\
  (at_by_after clock x u <> None <-> - 2 ^ 63 <= x - clock (u_read u) < 2 ^ 63).
Proof.
  assert (F : forall z, (if fits z then Some z else None) <> None <-> - 2 ^ 63 <= z < 2 ^ 63).
  { intros z. unfold fits. destruct (Z.leb_spec (- 2 ^ 63) z), (Z.ltb_spec z (2 ^ 63)); simpl; split; intros; try lia; try congruence. }
  unfold after_by_at, at_by_after, chk. split; rewrite <- F; destruct (fits _); split; congruence.
Qed.

(** ** filetime time points *)
Definition valid (t : Z) : Prop := 0 <= t < 2 ^ 64.
(** A duration of a whole number of ticks, that many. *)
Definition whole (d : dur) (n : Z) : Prop := den d > 0 /\ cnt d * num d = n * den d /\ fits (cnt d * num d) = true.

Lemma wrap_range x : valid (wrap x).
Proof. unfold valid, wrap. apply Z.mod_pos_bound. reflexivity. Qed.
Lemma wrap_id x : valid x -> wrap x = x.
Proof. intros V. apply Z.mod_small. exact V. Qed.
Lemma wrap_add x y : wrap (x + wrap y) = wrap (x + y).
Proof. unfold wrap. apply Zplus_mod_idemp_r. Qed.
Lemma wrap_sub x y : wrap (x - wrap y) = wrap (x - y).
Proof. unfold wrap. apply Zminus_mod_idemp_r. Qed.
Lemma wrap_sub_l x y : wrap (wrap x - y) = wrap (x - y).
Proof. unfold wrap. apply Zminus_mod_idemp_l. Qed.
Lemma wrap_add_l x y : wrap (wrap x + y) = wrap (x + y).
Proof. unfold wrap. apply Zplus_mod_idemp_l. Qed.
Lemma cast_whole d n : whole d n -> cast d = Some n.
Proof. intros (D & E & F). unfold cast, chk. rewrite F, E. f_equal. apply Z.quot_mul. lia. Qed.

(** Adding and then subtracting the same duration, in either order, gives the time point back, for every duration. *)
Theorem filetime_add_sub t d r :
  valid t -> (plus t d = Some r -> minus r d = Some t) /\ (minus t d = Some r -> plus r d = Some t).
Proof.
  intros V. unfold plus, minus. destruct (cast d) as [c|]; [|split; discriminate].
  split; intros H; inversion H; subst; f_equal.
  - rewrite wrap_sub_l. replace (t + wrap c - wrap c) with t by lia. apply wrap_id; auto.
  - rewrite wrap_add_l. replace (t - wrap c + wrap c) with t by lia. apply wrap_id; auto.
Qed.

(** For whole ticks and as long as the result is a time after the epoch that fits, addition and subtraction are exact,
    so they respect the order, and the difference of two times up to max() is exact. *)
Theorem filetime_exact_partial t d n :
  valid t -> whole d n ->
  (valid (t + n) -> plus t d = Some (t + n) /\ (lt t (t + n) = true <-> 0 < n)) /\
  (valid (t - n) -> minus t d = Some (t - n)) /\
  (t <= tpmax -> 0 <= t + n <= tpmax -> exists r, plus t d = Some r /\ diff r t = Some n).
Proof.
  intros V W. pose proof (cast_whole W) as C. unfold plus, minus. rewrite C.
  assert (P : wrap (t + wrap n) = wrap (t + n)) by apply wrap_add.
  assert (M : wrap (t - wrap n) = wrap (t - n)) by apply wrap_sub.
  rewrite P, M. unfold valid, tpmax, lt in *. repeat split.
  - f_equal. apply wrap_id. auto.
  - rewrite Z.ltb_lt. lia.
  - rewrite Z.ltb_lt. lia.
  - intros Vn. f_equal. apply wrap_id. auto.
  - intros T N. exists (t + n). split; [f_equal; apply wrap_id; unfold valid; lia|].
    unfold diff, signed. destruct (Z.ltb_spec (t + n) (2 ^ 63)); [|lia]. destruct (Z.ltb_spec t (2 ^ 63)); [|lia].
    unfold chk, fits. replace (t + n - t) with n by lia.
    destruct (Z.leb_spec (- 2 ^ 63) n), (Z.ltb_spec n (2 ^ 63)); simpl; auto; lia.
Qed.

(** Adding any positive duration moves the time by less than a tick less than it should, never by more (rounding down). *)
Theorem filetime_rounds_down t d :
  valid t -> den d > 0 -> 0 <= cnt d * num d -> fits (cnt d * num d) = true -> valid (t + cnt d * num d / den d) ->
  exists n, plus t d = Some (t + n) /\ n * den d <= cnt d * num d < (n + 1) * den d.
Proof.
  intros V D P F B. exists (cnt d * num d / den d). unfold plus, cast, chk. rewrite F.
  rewrite Z.quot_div_nonneg by lia. rewrite wrap_add, wrap_id by auto. split; auto.
  pose proof (Z.div_mod (cnt d * num d) (den d) ltac:(lia)). pose proof (Z.mod_pos_bound (cnt d * num d) (den d) ltac:(lia)). nia.
Qed.

(** The two halves of the system's time are put together without loss, and later times compare later. *)
Theorem filetime_now h l h' l' :
  0 <= h < 2 ^ 32 -> 0 <= l < 2 ^ 32 -> 0 <= h' < 2 ^ 32 -> 0 <= l' < 2 ^ 32 ->
  (eq (now h l) (now h' l') = true <-> h = h' /\ l = l') /\
  (lt (now h l) (now h' l') = true <-> h < h' \/ h = h' /\ l < l').
Proof.
  intros H L H' L'. unfold now, from_ticks, eq, lt.
  assert (E : 2 ^ 64 = 2 ^ 32 * 2 ^ 32) by reflexivity.
  rewrite !wrap_id by (unfold valid; rewrite E; nia).
  rewrite Z.eqb_eq, Z.ltb_lt. split; split; intros.
  - split; nia.
  - destruct H0; subst; auto.
  - nia.
  - nia.
Qed.

(** ** What is not true of the code *)

(** The longest duration cannot be waited for: now() + duration::max() is undefined behaviour as soon as the clock is past 0. *)
Theorem schedule_after_max_refuted :
  forall clock u, 0 < clock (u_read u) -> after_by_at clock (2 ^ 63 - 1) u = None.
Proof.
  intros clock u P. unfold after_by_at, chk, fits.
  destruct (Z.ltb_spec (clock (u_read u) + (2 ^ 63 - 1)) (2 ^ 63)); [lia|]. now rewrite andb_false_r.
Qed.
(** The earliest time point of a clock that is past 0 cannot be asked for either. *)
Theorem schedule_at_min_refuted :
  forall clock u, 0 < clock (u_read u) -> at_by_after clock (- 2 ^ 63) u = None.
Proof.
  intros clock u P. unfold at_by_after, chk, fits.
  destruct (Z.leb_spec (- 2 ^ 63) (- 2 ^ 63 - clock (u_read u))); [lia|reflexivity].
Qed.
(** A clock that is not steady (as filetime_clock): set forward by 50 at time 20 - schedule_after(100) completes after 60. *)
Theorem schedule_after_adjusted_refuted :
  exists clock d u a, (forall t t', t <= t' -> clock t <= clock t') /\ ordered u /\
    after_by_at clock d u = Some a /\ native clock a u /\ u_done u < u_start u + d.
Proof.
  exists (fun t => if t <? 20 then t else t + 50), 100, (mku 10 10 10 70), (AskAt 110).
  split; [|split; [unfold ordered; simpl; lia|split; [reflexivity|split; vm_compute; [intros X; discriminate|reflexivity]]]].
  intros t t' L. destruct (Z.ltb_spec t 20), (Z.ltb_spec t' 20); lia.
Qed.
(** Set back by 50 after the clock was read: schedule_at(100) completes when the clock shows 50. *)
Theorem schedule_at_adjusted_refuted :
  exists clock tp u a, ordered u /\
    at_by_after clock tp u = Some a /\ native clock a u /\ clock (u_done u) < tp.
Proof.
  exists (fun t => if t <? 20 then t else t - 50), 100, (mku 10 10 10 100), (AskAfter 90).
  split; [unfold ordered; simpl; lia|split; [reflexivity|split; vm_compute; [intros X; discriminate|reflexivity]]].
Qed.
(** filetime: subtracting more than the time since the epoch gives a far later time. *)
Theorem filetime_before_epoch_refuted :
  exists t d r, whole d 10 /\ minus t d = Some r /\ lt t r = true /\ lt tpmax r = true.
Proof. exists 5, (mkd 10 1 1), (2 ^ 64 - 5). vm_compute. repeat split; auto. Qed.
(** The difference of two time points made by from_ticks can be undefined behaviour, and max() is not the last time point. *)
Theorem filetime_difference_refuted :
  exists a b, a = from_ticks (2 ^ 63) /\ b = from_ticks 1 /\ lt b a = true /\ lt tpmax a = true /\ diff a b = None.
Proof. exists (2 ^ 63), 1. vm_compute. auto. Qed.
(** A duration shorter than a tick (here 50ns) is lost: a wait for it ends at once. *)
Theorem filetime_truncates_refuted : exists d, 0 < cnt d * num d /\ forall t, valid t -> plus t d = Some t.
Proof.
  exists (mkd 50 1 100). split; [reflexivity|]. intros t V. unfold plus. change (cast (mkd 50 1 100)) with (Some 0).
  cbn [option_map]. f_equal. rewrite wrap_add, Z.add_0_r. apply wrap_id; auto.
Qed.

(** ** The hypotheses are met *)
Example fallback_use : let clock := fun t => t + 1000 in
  after_by_at clock 50 (mku 10 12 15 62) = Some (AskAt 1062) /\ native clock (AskAt 1062) (mku 10 12 15 62) /\
  at_by_after clock 1050 (mku 10 12 15 53) = Some (AskAfter 38) /\ native clock (AskAfter 38) (mku 10 12 15 53) /\
  clock 53 = 1050 + (15 - 12).
Proof. vm_compute. repeat split; discriminate. Qed.
Example filetime_use :
  plus (now 31 7) (mkd 3 10 1) = Some (31 * 2 ^ 32 + 37) /\ whole (mkd 3 10 1) 30 /\
  diff (now 31 37) (now 31 7) = Some 30 /\ minus 100 (mkd (-250) 1 100) = Some 102.
Proof. vm_compute. auto 10. Qed.
