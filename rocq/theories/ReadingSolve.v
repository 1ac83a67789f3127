(** Solutions of compiled constraints in terms of the reading of their text. *)
From Verif Require Import Solver SpecFormula SpecSafe SpecSolve SpecReading SpecSays DictFacts CodeFacts ModelFacts SearchFacts LoopFacts SetupFacts MasterFacts SolverProps SolverMore
  ReadingFacts ReadingProps.
Open Scope list_scope.
Open Scope Z_scope.

Lemma says_iff w cs m c s :
  (forall c c', In c cs -> In c' cs -> c_id c = c_id c' -> c_body c = c_body c') ->
  all_readable cs -> In c cs -> concerns m c ->
  (forall x v, In (x, v) s -> exists d, is_variable m x d /\ In v d) ->
  (forall x, mentions c x -> In x (map fst s)) ->
  (ceval (compile_all true w cs) c s = Ok true <-> says (w_par w) s c) /\
  (no_text_error (w_par w) m cs -> exists b, ceval (compile_all true w cs) c s = Ok b).
Proof.
  intros Hid Hr Hin Hcc Hd Hall. unfold says. destruct (c_body c) as [b|e|xs] eqn:Eb.
  - destruct Hcc as [(x & Hx) _]. unfold mentions in Hx. rewrite Eb in Hx. contradiction.
  - assert (E : ceval (compile_all true w cs) c s =
      match reading (w_par w) e with
      | Some a => let! v := aeval (filter (fun b => memb (fst b) (vars e)) s) a in Ok (truthy v)
      | None => Err TypeError end).
    { unfold ceval. rewrite Eb. rewrite (compile_all_in w cs c e Hin Eb) by (intros c' Hc' Ei; now apply Hid).
      rewrite call_reading by (eapply Hr; eassumption).
      destruct (reading (w_par w) e) as [a|]; [|reflexivity].
      destruct (forallb (fun x => dmem s x) (vars e)) eqn:F; [reflexivity|]. exfalso.
      assert (F' : forallb (fun x => dmem s x) (vars e) = true); [|congruence].
      apply forallb_forall. intros x Hx. apply dmem_In. apply Hall. apply mentions_vars. unfold c_vars. rewrite Eb. exact Hx. }
    rewrite E. unfold text_value. split.
    + destruct (reading (w_par w) e) as [a|].
      * destruct (aeval _ a) as [v|ex] eqn:V; cbn [bind].
        -- unfold truthy. destruct (Z.eqb_spec v 0) as [->|K]; cbn [negb].
           ++ split; [discriminate|]. intros (v' & (a' & A1 & A2) & N). injection A1 as <-. rewrite V in A2. congruence.
           ++ split; [|reflexivity]. intros _. exists v. split; [|exact K]. exists a. split; [reflexivity|exact V].
        -- split; [discriminate|]. intros (v' & (a' & A1 & A2) & N). injection A1 as <-. rewrite V in A2. discriminate.
      * split; [discriminate|]. intros (v' & (a' & A1 & _) & _). discriminate.
    + intros Hne. destruct (Hne c e s Hin Eb Hcc Hd Hall) as (v & a & A1 & A2). rewrite A1, A2. eexists. reflexivity.
  - destruct (holds_iff w false [c] m c s) as (b & Hb & Hi); auto.
    + intros c1 c2 [<-|[]] [<-|[]]. reflexivity.
    + intros c1 e [<-|[]] E. congruence.
    + intros c1 e s1 [<-|[]] E. congruence.
    + left. reflexivity.
    + unfold ceval in *. rewrite Eb in *. rewrite Hb. split; [|eauto].
      rewrite <- Hi. split; [intros E; injection E as ->; reflexivity|intros ->; reflexivity].
Qed.

Lemma solves_says w cs m s :
  (forall c c', In c cs -> In c' cs -> c_id c = c_id c' -> c_body c = c_body c') -> all_readable cs ->
  (solves (evaluates_true (compile_all true w cs)) m cs s <-> solves (says (w_par w)) m cs s).
Proof.
  intros Hid Hr. split; intros [Ha Hc]; (split; [exact Ha|]); intros c Hin Hcc; destruct (assigns_dom m s Ha) as [H1 H2];
    apply (says_iff w cs m c s Hid Hr Hin Hcc H1 (H2 c Hcc)); exact (Hc c Hin Hcc).
Qed.

Theorem solutions_say clk shuffle f e sv a ys e' r :
  let m := w_model (e_world e) in let cs := all_cons m a in
  valid shuffle e a -> s_compile sv = true -> all_readable cs ->
  solve_all clk shuffle f e sv a = Some (ys, e', r) ->
  (forall s, In s ys -> solves (says (w_par (e_world e))) m cs s) /\
  (unlimited sv a -> m_solvable m = true -> has_variable m -> groups_ok m cs -> no_text_error (w_par (e_world e)) m cs ->
   r = None /\ e_interrupt e' = None /\
   forall t, solves (says (w_par (e_world e))) m cs t -> exists s, In s ys /\ same_dict s t).
Proof.
  intros m cs Hv Hcmp Hr H. pose proof (proj1 (proj2 (proj2 (proj2 Hv)))) as Hid. fold m cs in Hid.
  destruct (run_cases _ _ _ _ _ _ _ _ _ Hv H) as [(-> & _ & _ & Hc)|(Hsol & Hhv & _ & u & order & ys0 & r0 & Es & Eo & Hw & _)].
  - split; [intros s []|]. intros Hu Hsol Hhv Hg Hne. exfalso. fold m cs in Hc. rewrite Hcmp in Hc.
    destruct Hc as [(C & _)|[(_ & C & _)|(_ & _ & _ & ex & _ & [[_ C]|[C _]])]]; try congruence; try contradiction.
    destruct C as (c & s & Hc & Hcc & Hd & Hall & He).
    destruct (proj2 (says_iff _ _ _ c s Hid Hr Hc Hcc Hd Hall) Hne) as (b & Hb). congruence.
  - fold m cs in Hw. rewrite Hcmp in Hw. split.
    + intros s Hs. apply (solves_says (e_world e) cs m s Hid Hr). rewrite <- Hw.
      exact (sound _ _ _ _ _ _ _ _ _ Hv H s Hs).
    + intros Hu _ _ Hg Hne.
      assert (Hnr : no_raise (ceval (e_world e')) m cs).
      { rewrite Hw. intros c s Hc Hcc Hd Hall. exact (proj2 (says_iff _ _ _ c s Hid Hr Hc Hcc Hd Hall) Hne). }
      destruct (complete _ _ _ _ _ _ _ _ _ Hv H Hu Hsol Hhv Hnr Hg) as (A & B & C).
      split; [exact A|]. split; [exact B|]. intros t Ht. apply C. fold m cs. rewrite Hw.
      now apply (solves_says (e_world e) cs m t Hid Hr).
Qed.

(** A constraint over the variables whose text does not compile: no solution. *)
Theorem unreadable_no_solution clk shuffle f e sv a ys e' r c x :
  let m := w_model (e_world e) in let cs := all_cons m a in
  valid shuffle e a -> s_compile sv = true -> all_readable cs ->
  In c cs -> concerns m c -> c_body c = CExpr x -> compiles x = false ->
  solve_all clk shuffle f e sv a = Some (ys, e', r) -> ys = [].
Proof.
  intros m cs Hv Hcmp Hr Hc Hcc Eb Ex H. destruct (solutions_say _ _ _ _ _ _ _ _ _ Hv Hcmp Hr H) as (S & _).
  destruct ys as [|s ys]; [reflexivity|]. exfalso. destruct (S s (or_introl eq_refl)) as (_ & S1).
  specialize (S1 c Hc Hcc). unfold says in S1. rewrite Eb in S1. destruct S1 as (v & (b & R & _) & _).
  pose proof (reading_compiles (w_par (e_world e)) x) as Q. rewrite R, Ex in Q. discriminate.
Qed.
