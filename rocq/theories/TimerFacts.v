(** The Timer object is a stopwatch. *)
From Verif Require Import Solver SpecTimer.
Open Scope list_scope.
Open Scope Z_scope.

Lemma timer_run_measured h : forall t,
  let r := measured (t_start t) h in
  timer_run h t = Timer (t_elapsed t + total_time (fst r)) (snd r) (t_count t + total_count (fst r)).
Proof.
  induction h as [|[now c] h IH]; intros [el st n].
  - simpl. f_equal; lia.
  - simpl timer_run. rewrite IH. clear IH. destruct st as [b|]; destruct c as [|k|]; cbn -[measured];
      cbn [measured t_start]; try reflexivity;
      destruct (measured None h) as [l o]; cbn [fst snd t_elapsed t_count total_time total_count]; f_equal; lia.
Qed.

Lemma stopwatch h now :
  let t := timer_run h new_timer in
  let (l, open) := measured None h in
  t_running t = (match open with Some _ => true | None => false end) /\
  t_count t = total_count l /\
  timer_stats t = (total_count l, total_time l) /\
  timer_elapsed now t = total_time l + match open with Some b => now - b | None => 0 end.
Proof.
  cbv zeta. pose proof (timer_run_measured h new_timer) as H. cbn [t_start new_timer] in H.
  destruct (measured None h) as [l o]. cbn [fst snd] in H. rewrite H. cbn.
  repeat split. unfold timer_elapsed. cbn. destruct o; lia.
Qed.

Lemma stopwatch_errors h now c :
  let t := timer_run h new_timer in
  let running := match snd (measured None h) with Some _ => true | None => false end in
  snd (timer_call now c t) =
    match c with
    | CStart => if running then Some RuntimeError else None
    | CStop _ => if running then None else Some RuntimeError
    | CAbort => None
    end /\
  (snd (timer_call now c t) <> None -> fst (timer_call now c t) = t).
Proof.
  cbv zeta. pose proof (timer_run_measured h new_timer) as H. cbn [t_start new_timer] in H.
  destruct (measured None h) as [l o]. cbn [fst snd] in H. rewrite H.
  destruct c, o; cbn; split; try reflexivity; try congruence.
Qed.
