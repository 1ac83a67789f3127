(** Every call of [next] returns, whatever the rest of the program did since the last one. *)
From Coq Require Import Permutation.
From Verif Require Import Solver Program SpecFormula SpecSafe SpecSolve SpecIsolation SpecInterleave SpecProgram ExprFacts DictFacts ModelFacts CompileFacts CodeFacts
  SearchFacts LoopFacts EnumFacts SetupFacts MasterFacts HistoryFacts SolverProps SolverMore SolverExtra InterleaveFacts IsolationFacts InterleaveStats ProgramFacts ProgramRun ProgramInv ProgramProps ProgramStats.
Open Scope list_scope.
Open Scope nat_scope.

Section Weight.
Variable i : ginfo.

Fixpoint fresh_weight (names : list name) : nat :=
  match names with [] => 0 | x :: rest => 2 + length (dget_or (i_doms i) x []) * (1 + fresh_weight rest) end.
Definition open_weight (d : list Z) (rest : list name) : nat := 1 + length d * (1 + fresh_weight rest).
Definition top_weight (doms : dict (list Z)) (names : list name) : nat :=
  match names with
  | [] => 0
  | x :: rest => match dget doms x with Some d => open_weight d rest | None => fresh_weight names end
  end.
Definition weight (c : cfg) : nat := list_sum (map (fun fr => top_weight (g_doms c) (fst fr)) (g_stack c)).

Fixpoint below (doms : dict (list Z)) (names : list name) (st : list (list name * subst)) : Prop :=
  match st with
  | [] => True
  | (y :: rest, _) :: st' => rest = names /\ ~ In y rest /\ dget doms y <> None /\ below doms (y :: rest) st'
  | _ => False
  end.

Definition wf (c : cfg) : Prop :=
  NoDup (dkeys (g_doms c)) /\
  match g_stack c with
  | [] => True
  | (x :: rest, _) :: st => NoDup (x :: rest) /\ (forall z, In z rest -> dget (g_doms c) z = None) /\ below (g_doms c) (x :: rest) st
  | _ => False
  end.

Lemma below_change doms doms' st : forall names, below doms names st -> (forall z, ~ In z names -> dget doms' z = dget doms z) ->
  below doms' names st /\ list_sum (map (fun fr => top_weight doms' (fst fr)) st) = list_sum (map (fun fr => top_weight doms (fst fr)) st).
Proof.
  induction st as [|[[|y rest] s] st IH]; intros names H Hd; [split; [exact Logic.I|reflexivity]|destruct H|].
  destruct H as (-> & Hn & Hy & Hb).
  destruct (IH (y :: names) Hb) as [A B]. { intros z Hz. apply Hd. intros Hi. apply Hz. now right. }
  split.
  - cbn [below]. split; [reflexivity|]. split; [exact Hn|]. split; [now rewrite Hd|exact A].
  - cbn [map list_sum fold_right fst]. unfold list_sum in *. cbn [fold_right]. rewrite B. f_equal. cbn [top_weight]. now rewrite (Hd y Hn).
Qed.

(** Popping the top frame. *)
Lemma wf_pop doms x rest (s : subst) st doms' : NoDup (dkeys doms') -> below doms (x :: rest) st -> NoDup (x :: rest) ->
  (forall z, ~ In z (x :: rest) -> dget doms' z = dget doms z) -> (forall z, In z (x :: rest) -> dget doms' z = None) ->
  wf (Cfg st doms') /\ (top_weight doms (x :: rest) > 0 -> weight (Cfg st doms') < weight (Cfg ((x :: rest, s) :: st) doms)).
Proof.
  intros Hk Hb Hnd Hd Hz. destruct (below_change doms doms' st (x :: rest) Hb Hd) as [Hb' Hw]. split.
  - split; [exact Hk|]. cbn [g_stack g_doms]. destruct st as [|[[|y r] s'] st]; [exact Logic.I|destruct Hb|].
    destruct Hb' as (-> & Hy & Hs & Hb'). split; [constructor; assumption|]. split; [exact Hz|exact Hb'].
  - unfold weight. cbn [g_stack g_doms map fst]. rewrite Hw. unfold list_sum. cbn [fold_right]. lia.
Qed.

Lemma filterM_short {A} (f : A -> res bool) l : forall l', filterM f l = Ok l' -> length l' <= length l.
Proof.
  intros l' H. rewrite (filterM_Ok f l l' H). clear H. induction l as [|a l IH]; [auto|].
  cbn. destruct (match f a with Ok b => b | Err _ => false end); cbn; lia.
Qed.

(** Taking a value from the domain [v :: d] of the variable of the top frame. *)
Lemma wf_take doms x rest s st v d doms1 c y : NoDup (dkeys doms1) -> below doms (x :: rest) st -> NoDup (x :: rest) -> (forall z, In z rest -> dget doms z = None) ->
  (forall z, z <> x -> dget doms1 z = dget doms z) -> top_weight doms (x :: rest) >= open_weight (v :: d) rest ->
  take_value x rest s (v :: d) ((x :: rest, s) :: st) doms1 = y -> (y = CNext c \/ exists s', y = CYield s' c) ->
  wf c /\ weight c < weight (Cfg ((x :: rest, s) :: st) doms).
Proof.
  intros Hk Hb Hnd Hz Hd Hw Ht Hy.
  set (doms' := dset doms1 x d) in *.
  assert (Hd' : forall z, z <> x -> dget doms' z = dget doms z).
  { intros z Hx. unfold doms'. rewrite dget_dset_ne by exact Hx. now apply Hd. }
  assert (Hx' : dget doms' x = Some d) by apply dget_dset_eq.
  assert (Hk' : NoDup (dkeys doms')) by now apply dset_NoDup.
  assert (Hb' : below doms' (x :: rest) st /\ list_sum (map (fun fr => top_weight doms' (fst fr)) st) = list_sum (map (fun fr => top_weight doms (fst fr)) st)).
  { apply (below_change doms doms' st (x :: rest) Hb). intros z Hn. apply Hd'. intros ->. apply Hn. now left. }
  destruct Hb' as [Hb' Hw']. assert (Hnx : ~ In x rest) by now inversion Hnd.
  assert (Hz' : forall z, In z rest -> dget doms' z = None).
  { intros z Hi. rewrite Hd'; [now apply Hz|]. intros ->. contradiction. }
  cbn [take_value] in Ht. fold doms' in Ht. destruct rest as [|x2 rest].
  - assert (Ec : c = Cfg (([x], s) :: st) doms').
    { subst y. destruct Hy as [Hy|[s' Hy]]; [discriminate|]. now injection Hy as _ <-. }
    subst c. split.
    + split; [exact Hk'|]. cbn [g_stack g_doms]. split; [exact Hnd|]. split; [exact Hz'|exact Hb'].
    + unfold weight. cbn [g_stack g_doms map fst]. unfold list_sum in *. cbn [fold_right]. rewrite Hw'.
      cbn [top_weight]. rewrite Hx'. cbn [top_weight] in Hw. unfold open_weight in *. cbn [length fresh_weight] in *. lia.
  - assert (Ec : c = Cfg ((x2 :: rest, dset s x v) :: (x :: x2 :: rest, s) :: st) doms').
    { subst y. destruct Hy as [Hy|[s' Hy]]; [|discriminate]. now injection Hy as <-. }
    subst c. split.
    + split; [exact Hk'|]. cbn [g_stack g_doms below]. split; [now inversion Hnd|]. split.
      * intros z Hi. apply Hz'. now right.
      * split; [reflexivity|]. split; [exact Hnx|]. split; [now rewrite Hx'|exact Hb'].
    + unfold weight. cbn [g_stack g_doms map fst]. unfold list_sum in *. cbn [fold_right]. rewrite Hw'.
      assert (E1 : top_weight doms' (x2 :: rest) = fresh_weight (x2 :: rest)).
      { cbn [top_weight]. rewrite Hz'; [reflexivity|now left]. }
      assert (E2 : top_weight doms' (x :: x2 :: rest) = open_weight d (x2 :: rest)) by (cbn [top_weight]; now rewrite Hx').
      rewrite E1, E2. unfold open_weight in *. cbn [length] in Hw. remember (fresh_weight (x2 :: rest)) as W.
      remember (top_weight doms (x :: x2 :: rest)) as T. nia.
Qed.

Lemma core_wf w c y c' : wf c -> core_step w i c = y -> (y = CNext c' \/ exists s, y = CYield s c') -> wf c' /\ weight c' < weight c.
Proof.
  destruct c as [stack doms]. intros [Hk Hw] H Hy. unfold core_step in H. cbn [g_stack g_doms] in *.
  destruct stack as [|[[|x rest] s] st]; [subst y; destruct Hy as [Hy|[s' Hy]]; discriminate|destruct Hw|].
  destruct Hw as (Hnd & Hz & Hb). destruct (dget doms x) as [d|] eqn:Ed.
  - destruct d as [|v d].
    + assert (c' = Cfg st (ddel doms x)) as ->.
      { subst y. destruct Hy as [Hy|[s' Hy]]; [|discriminate]. now injection Hy as <-. }
      destruct (wf_pop doms x rest s st (ddel doms x)) as [A B]; auto.
      * now apply ddel_NoDup.
      * intros z Hn. rewrite dget_ddel by exact Hk. destruct (String.eqb_spec z x) as [->|]; [|reflexivity]. elim Hn. now left.
      * intros z Hi. rewrite dget_ddel by exact Hk. destruct (String.eqb_spec z x) as [->|]; [reflexivity|].
        destruct Hi as [->|Hi]; [contradiction|]. now apply Hz.
      * split; [exact A|]. apply B. cbn [top_weight]. rewrite Ed. unfold open_weight. lia.
    + eapply (wf_take doms x rest s st v d doms c' y); eauto. cbn [top_weight]. rewrite Ed. lia.
  - unfold filter_domain in H. destruct (dget (i_doms i) x) as [dm|] eqn:Edm; [|subst y; destruct Hy as [Hy|[s' Hy]]; discriminate].
    destruct (filterM _ dm) as [d|ex] eqn:Ef; [|subst y; destruct Hy as [Hy|[s' Hy]]; discriminate].
    pose proof (filterM_short _ _ _ Ef) as Hlen.
    destruct d as [|v d].
    + assert (c' = Cfg st doms) as ->.
      { subst y. destruct Hy as [Hy|[s' Hy]]; [|discriminate]. now injection Hy as <-. }
      destruct (wf_pop doms x rest s st doms) as [A B]; auto.
      * intros z [->|Hi]; [exact Ed|]. now apply Hz.
      * split; [exact A|]. apply B. cbn [top_weight]. rewrite Ed. cbn. lia.
    + eapply (wf_take doms x rest s st v d (dset doms x (v :: d)) c' y); eauto.
      * now apply dset_NoDup.
      * intros z Hn. now apply dget_dset_ne.
      * cbn [top_weight]. rewrite Ed. cbn [fresh_weight]. unfold dget_or. rewrite Edm. unfold open_weight. nia.
Qed.

End Weight.

(** ** Generators *)

Definition sound_gen (g : gen) : Prop :=
  match g with GLoop l c _ | GYield l c _ => wf c | _ => True end.

Lemma loop_returns clk shuffle k : forall e l c n, wf c -> (weight (l_info l) c < k)%nat ->
  exists f e' g' ev, next clk shuffle f e (GLoop l c n) = Some (e', g', ev) /\ sound_gen g'.
Proof.
  induction k as [|k IH]; intros e l c n Hw Hk; [lia|].
  assert (Hone : forall e' g' ev, micro clk shuffle e (GLoop l c n) = (e', g', ev) -> ev <> EvNone -> sound_gen g' ->
    exists f e' g' ev, next clk shuffle f e (GLoop l c n) = Some (e', g', ev) /\ sound_gen g').
  { intros e' g' ev E Hev Hg. exists 1%nat, e', g', ev. cbn [next]. rewrite E. split; [|exact Hg]. destruct ev; [contradiction| | |]; reflexivity. }
  cbn [micro] in Hone. destruct (g_stack c) as [|fr st] eqn:Est; [eapply Hone; [reflexivity|discriminate|exact Logic.I]|].
  destruct (check_timeout clk e l) as [e1 [ev|]] eqn:Ect.
  { eapply Hone; [reflexivity| |exact Logic.I]. unfold check_timeout in Ect. destruct (l_timeout l); try discriminate.
    - destruct (_ <? _)%Z; [|discriminate]. injection Ect as _ <-. discriminate.
    - injection Ect as _ <-. discriminate. }
  destruct (core_step (e_world e1) (l_info l) c) as [c'|s c'|ex] eqn:Ec.
  - destruct (core_wf (l_info l) (e_world e1) c _ c' Hw Ec) as [Hw' Hlt]; [now left|].
    destruct (IH e1 l c' n Hw' ltac:(lia)) as (f & e' & g' & ev & En & Hg). exists (S f), e', g', ev. split; [|exact Hg].
    cbn [next micro]. rewrite Est, Ect, Ec. exact En.
  - destruct (core_wf (l_info l) (e_world e1) c _ c' Hw Ec) as [Hw' _]; [right; eauto|].
    destruct (do_stop clk e1 (l_timer l)) as [e2 [u|ex]]; (eapply Hone; [reflexivity|discriminate|]); [exact Hw'|exact Logic.I].
  - eapply Hone; [reflexivity|discriminate|exact Logic.I].
Qed.

Lemma gen_returns clk shuffle e g : sound_gen g -> started g ->
  exists f e' g' ev, next clk shuffle f e g = Some (e', g', ev) /\ sound_gen g'.
Proof.
  intros Hg Hs. destruct g as [sv a|l c n|l c n|].
  - now elim (Hs sv a).
  - eapply loop_returns; eauto.
  - assert (Hres : exists f e' g' ev, (exists e1 g1 ev1, micro clk shuffle e (GYield l c n) = (e1, g1, ev1) /\
      match ev1 with EvNone => next clk shuffle f e1 g1 = Some (e', g', ev) | _ => e' = e1 /\ g' = g1 /\ ev = ev1 end) /\ sound_gen g').
    { cbn [micro].
      assert (Hr : exists f e' g' ev, (exists e1 g1 ev1, match do_start clk e (l_timer l) with (e', Ok _) => (e', GLoop l c n, EvNone) | (e', Err ex) => (e', GDone, EvRaise ex) end = (e1, g1, ev1) /\
        match ev1 with EvNone => next clk shuffle f e1 g1 = Some (e', g', ev) | _ => e' = e1 /\ g' = g1 /\ ev = ev1 end) /\ sound_gen g').
      { destruct (do_start clk e (l_timer l)) as [e1 [u|ex]].
        - destruct (loop_returns clk shuffle (S (weight (l_info l) c)) e1 l c n Hg ltac:(lia)) as (f & e' & g' & ev & En & Hg').
          exists f, e', g', ev. split; [|exact Hg']. exists e1, (GLoop l c n), EvNone. auto.
        - exists 0%nat, e1, GDone, (EvRaise ex). split; [|exact Logic.I]. exists e1, GDone, (EvRaise ex). auto. }
      destruct (l_limit l) as [|m|]; [exact Hr| |].
      - destruct (m <=? n)%Z; [|exact Hr]. exists 0%nat. eexists _, _, _. split; [eexists _, _, _; split; [reflexivity|cbn; auto]|exact Logic.I].
      - exists 0%nat. eexists _, _, _. split; [eexists _, _, _; split; [reflexivity|cbn; auto]|exact Logic.I]. }
    destruct Hres as (f & e' & g' & ev & (e1 & g1 & ev1 & Em & H) & Hg'). exists (S f), e', g', ev. split; [|exact Hg'].
    cbn [next]. rewrite Em. destruct ev1; [exact H| | |]; destruct H as (-> & -> & ->); reflexivity.
  - exists 1%nat, e, GDone, EvStop. split; [reflexivity|exact Logic.I].
Qed.

Lemma init_returns clk shuffle e sv a : valid shuffle e a ->
  exists f e' g' ev, next clk shuffle f e (GInit sv a) = Some (e', g', ev) /\ sound_gen g'.
Proof.
  intros (Hs & Hn & _ & Ho). destruct (micro clk shuffle e (GInit sv a)) as [[e1 g1] ev1] eqn:Em. pose proof Em as Em'.
  rewrite begin_spec in Em'. cbv zeta in Em'.
  assert (Hdone : g1 = GDone -> ev1 <> EvNone -> exists f e' g' ev, next clk shuffle f e (GInit sv a) = Some (e', g', ev) /\ sound_gen g').
  { intros -> Hev. exists 1%nat, e1, GDone, ev1. split; [|exact Logic.I]. cbn [next]. rewrite Em. destruct ev1; [contradiction| | |]; reflexivity. }
  destruct (negb _); [injection Em' as _ <- <-; apply Hdone; [reflexivity|discriminate]|].
  destruct (do_setup _ _ _) as [w [u|ex]] eqn:Es; [|injection Em' as _ <- <-; apply Hdone; [reflexivity|discriminate]].
  destruct (order_facts shuffle _ _ _ _ _ sv a Hs Hn Ho Es) as (_ & Hnd & _).
  destruct (order_of shuffle sv a _ u) as [|x names]; [injection Em' as _ <- <-; apply Hdone; [reflexivity|discriminate]|].
  injection Em' as <- <- <-.
  set (l := run_local e sv a u) in *. set (c := Cfg [(x :: names, [])] []) in *.
  assert (Hw : wf c). { split; [constructor|]. cbn. auto. }
  destruct (loop_returns clk shuffle (S (weight (l_info l) c)) (start_env clk e w) l c 0 Hw ltac:(lia)) as (f & e' & g' & ev & En & Hg').
  exists (S f), e', g', ev. split; [|exact Hg']. cbn [next]. rewrite Em. exact En.
Qed.

(** ** Programs *)

Definition ready (p : prog) : Prop := forall g, match go_state (p_gens p g) with PRun x => sound_gen x | PNew _ => True end.

Lemma step_mono clk shuffle f n p x r : step clk shuffle f p x = Some r -> step clk shuffle (f + n) p x = Some r.
Proof.
  destruct x; cbn [step]; cbv zeta; auto. destruct (Nat.ltb g (p_ngens p)); auto.
  destruct (next clk (shuffle g) f _ _) as [[[e y] ev]|] eqn:En; [|discriminate]. now rewrite (next_mono _ _ _ _ _ _ n En).
Qed.

Lemma run_mono clk shuffle f n xs : forall p r, run clk shuffle f p xs = Some r -> run clk shuffle (f + n) p xs = Some r.
Proof.
  induction xs as [|x xs IH]; intros p r H; [exact H|]. cbn [run] in *.
  destruct (step clk shuffle f p x) as [[p1 o]|] eqn:E; [|discriminate]. rewrite (step_mono _ _ _ n _ _ _ E).
  destruct (run clk shuffle f p1 xs) as [[log q]|] eqn:Er; [|discriminate]. now rewrite (IH p1 _ Er).
Qed.

Lemma step_det clk shuffle f f' p x r r' : step clk shuffle f p x = Some r -> step clk shuffle f' p x = Some r' -> r = r'.
Proof.
  intros H H'. apply (step_mono _ _ _ f') in H. apply (step_mono _ _ _ f) in H'. rewrite Nat.add_comm in H'. congruence.
Qed.

Lemma step_returns clk shuffle B p x : tinv p -> pinv B p -> ready p -> (forall g, shuffles (shuffle g)) ->
  exists f p' o, step clk shuffle f p x = Some (p', o) /\ ready p'.
Proof.
  intros Ht Hi Hr Hs. destruct x as [|j a|pl t lm c|s v|s v|s v|s v|s j a|g|g|s]; lazymatch goal with |- context [Next _] => idtac | _ => exists 0%nat; cbn [step]; cbv zeta end.
  - eexists _, _. split; [reflexivity|exact Hr].
  - destruct (Nat.ltb j (p_nmodels p)); [destruct (run_api a (world_of p j)) as [w r]|]; eexists _, _; (split; [reflexivity|exact Hr]).
  - eexists _, _. split; [reflexivity|exact Hr].
  - destruct (Nat.ltb s (p_nsolvers p)); eexists _, _; (split; [reflexivity|exact Hr]).
  - destruct (Nat.ltb s (p_nsolvers p)); eexists _, _; (split; [reflexivity|exact Hr]).
  - destruct (Nat.ltb s (p_nsolvers p)); eexists _, _; (split; [reflexivity|exact Hr]).
  - destruct (Nat.ltb s (p_nsolvers p)); eexists _, _; (split; [reflexivity|exact Hr]).
  - destruct (_ && _); eexists _, _; (split; [reflexivity|]); [|exact Hr].
    intros k. cbn. unfold upd. destruct (Nat.eqb_spec k (p_ngens p)); [exact Logic.I|apply Hr].
  - assert (Hn : exists f e' g' ev, next clk (shuffle g) f (own_env p g) (starting p g) = Some (e', g', ev) /\ sound_gen g').
    { unfold own_env, starting. destruct (p_gens p g) as [s i [a|y]] eqn:Eg; cbn [go_solver go_model go_state].
      - apply init_returns. apply (pinv_valid B); auto. intros c Hc. destruct Hi as (_ & _ & _ & _ & _ & H6). apply (H6 g a c); [now rewrite Eg|exact Hc].
      - apply gen_returns; [specialize (Hr g); rewrite Eg in Hr; exact Hr|]. destruct Ht as (T & _). specialize (T g). rewrite Eg in T. apply T. }
    destruct Hn as (f & e & y & ev & En & Hy). exists f. cbn [step]. cbv zeta.
    destruct (Nat.ltb g (p_ngens p)); [|eexists _, _; split; [reflexivity|exact Hr]].
    unfold own_env, starting in En. rewrite En. eexists _, _. split; [reflexivity|].
    intros k. cbn. unfold upd. destruct (Nat.eqb_spec k g); [exact Hy|apply Hr].
  - destruct (Nat.ltb g (p_ngens p)); eexists _, _; (split; [reflexivity|]); [|exact Hr].
    intros k. cbn. unfold upd. destruct (Nat.eqb_spec k g); [exact Logic.I|apply Hr].
  - destruct (Nat.ltb s (p_nsolvers p)); eexists _, _; (split; [reflexivity|exact Hr]).
Qed.

Lemma program_runs_from clk shuffle B xs : (forall g, shuffles (shuffle g)) -> forall p, tinv p -> pinv B p -> ready p -> (forall f, proper_run clk shuffle f B p xs) ->
  exists f log q, run clk shuffle f p xs = Some (log, q).
Proof.
  intros Hs. induction xs as [|x xs IH]; intros p Ht Hi Hr Hp; [exists 0%nat, [], p; reflexivity|].
  destruct (step_returns clk shuffle B p x Ht Hi Hr Hs) as (f & p1 & o & E & Hr1).
  assert (Hx : proper B p x) by (specialize (Hp 0%nat); apply Hp).
  destruct (IH p1) as (f' & log & q & Er).
  - eapply tinv_step; eauto.
  - eapply pinv_step; eauto.
  - exact Hr1.
  - intros f'. specialize (Hp (f + f')%nat). cbn [proper_run] in Hp. rewrite (step_mono _ _ _ f' _ _ _ E) in Hp.
    destruct Hp as [_ Hp]. clear - Hp.
    revert p1 Hp. induction xs as [|x xs IH]; intros p Hp; [exact Hp|]. cbn [proper_run] in *. destruct Hp as [Hx Hp]. split; [exact Hx|].
    destruct (step clk shuffle f' p x) as [[p' o]|] eqn:E; [|exact Logic.I].
    apply (step_mono _ _ _ f) in E. rewrite Nat.add_comm in E. rewrite E in Hp. now apply IH.
  - exists (f + f')%nat, ((x, o) :: log), q. cbn [run]. rewrite (step_mono _ _ _ f' _ _ _ E).
    apply (run_mono _ _ _ f) in Er. rewrite Nat.add_comm in Er. now rewrite Er.
Qed.

Lemma program_runs clk shuffle B xs : (forall g, shuffles (shuffle g)) -> (forall f, proper_run clk shuffle f B init_prog xs) ->
  exists f log q, run clk shuffle f init_prog xs = Some (log, q).
Proof.
  intros Hs Hp. apply (program_runs_from clk shuffle B); auto; [apply tinv_init|apply pinv_init|]. intros g. exact Logic.I.
Qed.
