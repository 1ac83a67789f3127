(** An enumeration or optimization among others behaves as when run by itself. *)
From Coq Require Import Permutation.
From Verif Require Import Solver Optimize Program OptProgram SpecSolve SpecIsolation SpecInterleave SpecOptimize SpecProgram SpecOptProgram
  DictFacts ModelFacts CodeFacts SearchFacts LoopFacts SetupFacts MasterFacts SolverProps SolverMore SolverExtra
  InterleaveFacts IsolationFacts OptimizeFacts ProgramFacts ProgramRun ProgramInv ProgramProps OptProgramFacts OptProgramInv.
Open Scope list_scope.
Open Scope Z_scope.

(** ** The bounds *)

Definition caller (oms : list (objective * minmax)) : nat -> world -> subst -> res world := fun _ w s => add_solutions oms w s.

(** What a constraint holds when the solver compiles ([b]), and when nothing is compiled. *)
Definition code_of (b : bool) (par : nat -> Z) (e : expr) : option code := if b then Some (as_function par e) else None.
Definition wcurrent (b : bool) (cs : list constraint) (w : world) : Prop :=
  forall c e, In c cs -> c_body c = CExpr e -> w_code w (c_id c) = code_of b (w_par w) e.
Definition pcurrent (b : bool) (cs : list constraint) (p : prog) : Prop :=
  forall c e, In c cs -> c_body c = CExpr e -> p_code p (c_id c) = code_of b (p_par p) e.

(** The constraints and parameters of an optimization. *)
Record static (U : nat -> Prop) (cs : list constraint) (oms : list (objective * minmax)) : Prop := Static {
  sx_bodies : forall c c', In c cs -> In c' cs -> c_id c = c_id c' -> c_body c = c_body c';
  sx_cons : forall o m, In (o, m) oms -> In (mm_cons m) cs /\ exists e, c_body (mm_cons m) = CExpr e;
  sx_pars : forall o m, In (o, m) oms -> U (mm_not_set m) /\ U (mm_bound m) /\ forall r, uses r (o_expr o) -> U r;
  sx_apart : forall o m c e, In (o, m) oms -> In c cs -> c_body c = CExpr e -> uses (mm_not_set m) e \/ uses (mm_bound m) e -> c_id c = c_id (mm_cons m);
  sx_objs : forall o m o' m', In (o, m) oms -> In (o', m') oms -> ~ uses (mm_not_set m') (o_expr o) /\ ~ uses (mm_bound m') (o_expr o)
}.

Lemma set_bound_code b w m v cs e : wcurrent b cs w -> In (mm_cons m) cs -> c_body (mm_cons m) = CExpr e ->
  let par := upd (upd (w_par w) (mm_not_set m) 0) (mm_bound m) v in
  w_par (set_bound w m v) = par /\ forall id, w_code (set_bound w m v) id = upd (w_code w) (c_id (mm_cons m)) (code_of b par e) id.
Proof.
  intros Hc Hin Hb par. unfold set_bound. cbn [set_param w_code]. rewrite (Hc _ _ Hin Hb). destruct b; cbn [code_of].
  - unfold ccompile. rewrite Hb. split; reflexivity.
  - split; [reflexivity|]. intros id. cbn. unfold upd. destruct (Nat.eqb_spec id (c_id (mm_cons m))) as [->|]; [exact (Hc _ _ Hin Hb)|reflexivity].
Qed.

Lemma set_bound_current b U cs oms w o m v : static U cs oms -> In (o, m) oms -> wcurrent b cs w -> wcurrent b cs (set_bound w m v).
Proof.
  intros S Hin Hc. destruct (sx_cons _ _ _ S o m Hin) as [H1 [e H2]]. destruct (set_bound_code b w m v cs e Hc H1 H2) as [E1 E2].
  intros c e' Hc' Hb'. rewrite E1, E2. unfold upd at 1. destruct (Nat.eqb_spec (c_id c) (c_id (mm_cons m))) as [E|Hn].
  - pose proof (sx_bodies _ _ _ S c (mm_cons m) Hc' H1 E) as Eb. rewrite Hb', H2 in Eb. injection Eb as <-. reflexivity.
  - rewrite (Hc c e' Hc' Hb'). destruct b; [|reflexivity]. cbn. f_equal. apply as_function_uses. intros r Hr. unfold upd.
    destruct (Nat.eqb_spec r (mm_bound m)) as [->|_]; [elim Hn; eapply (sx_apart _ _ _ S); eauto|].
    destruct (Nat.eqb_spec r (mm_not_set m)) as [->|_]; [elim Hn; eapply (sx_apart _ _ _ S); eauto|reflexivity].
Qed.

Definition vals (par : nat -> Z) (oms : list (objective * minmax)) (s : subst) : bool :=
  forallb (fun om => match evaluate par s (o_expr (fst om)) with Ok _ => true | Err _ => false end) oms.

(** The two states of the parameters and of the code. *)
Record matched (b : bool) (U : nat -> Prop) (cs : list constraint) (oms : list (objective * minmax)) (par0 : nat -> Z) (p : prog) (w : world) : Prop := Matched {
  mt_par : forall r, U r -> p_par p r = w_par w r;
  mt_cur : pcurrent b cs p;
  mt_wcur : wcurrent b cs w;
  mt_obj : forall o m r, In (o, m) oms -> uses r (o_expr o) -> w_par w r = par0 r
}.

Lemma add_agree b U cs oms par0 i sol : static U cs oms -> forall sub p w, incl sub oms -> matched b U cs oms par0 p w ->
  match add_each p i sub sol, add_solutions sub w sol with
  | (p', Ok _), Ok w' => matched b U cs oms par0 p' w' /\ vals par0 sub sol = true
  | (p', Err ex), Err ex' => ex = ex' /\ vals par0 sub sol = false
  | _, _ => False
  end.
Proof.
  intros S. induction sub as [|[o m] sub IH]; intros p w Hi M; cbn [add_each add_solutions]; [auto|].
  assert (Hin : In (o, m) oms) by (apply Hi; now left).
  destruct (sx_pars _ _ _ S o m Hin) as (U1 & U2 & U3). destruct M as [M1 M2 M3 M4].
  unfold add_solution. cbn [world_of w_par]. change (w_par (world_of p i)) with (p_par p).
  assert (E1 : evaluate (p_par p) sol (o_expr o) = evaluate par0 sol (o_expr o)).
  { apply evaluate_uses. intros r Hr. rewrite M1 by auto. now apply (M4 o m). }
  assert (E2 : evaluate (w_par w) sol (o_expr o) = evaluate par0 sol (o_expr o)).
  { apply evaluate_uses. intros r Hr. now apply (M4 o m). }
  unfold vals. cbn [forallb fst]. fold (vals par0 sub sol). rewrite E1, E2. destruct (evaluate par0 sol (o_expr o)) as [v|ex]; cbn [bind]; [|auto].
  apply IH; [intros y Hy; apply Hi; now right|].
  destruct (sx_cons _ _ _ S o m Hin) as [H1 [e H2]].
  destruct (set_bound_code b (world_of p i) m v cs e M2 H1 H2) as [P1 P2]. destruct (set_bound_code b w m v cs e M3 H1 H2) as [W1 W2].
  constructor.
  - intros r Hr. cbn [p_par put_world]. rewrite P1, W1. cbn [world_of w_par]. unfold upd. destruct (Nat.eqb r (mm_bound m)); [reflexivity|].
    destruct (Nat.eqb r (mm_not_set m)); [reflexivity|auto].
  - exact (set_bound_current b U cs oms (world_of p i) o m v S Hin M2).
  - exact (set_bound_current b U cs oms w o m v S Hin M3).
  - intros o' m' r Hin' Hr. rewrite W1. destruct (sx_objs _ _ _ S o' m' o m Hin' Hin) as [N1 N2]. unfold upd.
    destruct (Nat.eqb_spec r (mm_bound m)) as [->|_]; [contradiction|]. destruct (Nat.eqb_spec r (mm_not_set m)) as [->|_]; [contradiction|]. now apply (M4 o' m').
Qed.

(** ** One call of [next()] of the loop *)

Lemma drain_caller clk shuffle oms F : forall k e g ys ex r, drain clk shuffle F (caller oms) k e g = Some (ys, ex, r) ->
  exists e1 g1 ev, next clk shuffle F e g = Some (e1, g1, ev) /\
  match ev with
  | EvYield s => match add_solutions oms (e_world e1) s with
                 | Err x => ys = [s] /\ r = Some x
                 | Ok w => exists ys' F' k', ys = s :: ys' /\ drain clk shuffle F' (caller oms) k' (set_world e1 w) g1 = Some (ys', ex, r)
                 end
  | EvStop => ys = [] /\ r = None /\ g1 = GDone
  | EvRaise x => ys = [] /\ r = Some x /\ g1 = GDone
  | EvNone => False
  end.
Proof.
  induction F as [|F IH]; intros k e g ys ex r H; [discriminate|].
  pose proof (fun e' g' v => next_end clk shuffle (S F) e g e' g' v) as He.
  rewrite drain_S in H. cbn [next] in *.
  destruct (micro clk shuffle e g) as [[e1 g1] [|s| |x]].
  - destruct (IH _ _ _ _ _ _ H) as (e2 & g2 & ev & E & Hm). exists e2, g2, ev. auto.
  - exists e1, g1, (EvYield s). split; [reflexivity|]. unfold caller in H. destruct (add_solutions oms (e_world e1) s) as [w|x].
    + fold (caller oms) in H. destruct (drain clk shuffle F (caller oms) (S k) (set_world e1 w) g1) as [[[ys' e2] r']|] eqn:Ed; [|discriminate].
      injection H as <- <- <-. exists ys', F, (S k). auto.
    + injection H as <- <- <-. auto.
  - injection H as <- <- <-. exists e1, g1, EvStop. repeat split. now apply (He e1 g1 EvStop).
  - injection H as <- <- <-. exists e1, g1, (EvRaise x). repeat split. now apply (He e1 g1 (EvRaise x)).
Qed.

Lemma matched_eval b U cs oms par0 p w i : matched b U cs oms par0 p w -> (forall r, needs cs r -> U r) -> same_eval (world_of p i) w cs.
Proof.
  intros [M1 M2 M3 _] Hn c s Hc. unfold ceval. destruct (c_body c) as [v|e|xs] eqn:Eb; try reflexivity.
  cbn [world_of w_code]. rewrite (M2 c e Hc Eb), (M3 c e Hc Eb).
  assert (Hp : forall r, uses r e -> p_par p r = w_par w r) by (intros r Hr; apply M1, Hn; exists c, e; auto).
  destruct b; cbn [code_of].
  - replace (as_function (p_par p) e) with (as_function (w_par w) e); [reflexivity|].
    apply as_function_uses. intros r Hr. symmetry. now apply Hp.
  - cbn [world_of w_par]. now rewrite (evaluate_uses (p_par p) (w_par w) s e Hp).
Qed.

Lemma next_yield clk shuffle f : forall e g e1 g1 s, next clk shuffle f e g = Some (e1, g1, EvYield s) -> local_of g1 <> None.
Proof.
  induction f as [|f IH]; intros e g e1 g1 s H; [discriminate|]. cbn [next] in H.
  destruct (micro clk shuffle e g) as [[e2 g2] ev] eqn:Em. destruct ev; [eauto| | |]; try discriminate. injection H as <- <- <-.
  unfold micro in Em. destruct g as [sv a|l c n|l c n|].
  - unfold begin in Em. destruct (negb _); [discriminate|]. destruct (do_setup _ _ _) as [w1 [u|x]]; [|discriminate].
    repeat match goal with H : context[match ?x with _ => _ end] |- _ => destruct x; try discriminate end.
  - destruct (g_stack c); [discriminate|]. destruct (check_timeout clk e l) as [e' [ev|]] eqn:Ec.
    + injection Em as <- <- ->. unfold check_timeout in Ec. 
      repeat match goal with H : context[match ?x with _ => _ end] |- _ => destruct x; try discriminate end.
    + destruct (core_step _ _ _) as [c'|s' c'|x]; try discriminate. destruct (do_stop _ _ _) as [e'' [u|x]]; [|discriminate]. injection Em as <- <- <-. discriminate.
  - repeat match goal with H : context[match ?x with _ => _ end] |- _ => destruct x; try discriminate end.
  - discriminate.
Qed.

(** ** Programs in which nothing is compiled *)

Definition plain (q : oprog) : Prop := interpreted (q_base q) /\ owned (q_base q).

Lemma make_code os : forall w w' r, make_constraints os w = (w', r) -> (forall id, w_code w id = None) -> forall id, w_code w' id = None.
Proof.
  induction os as [|[o|] os IH]; intros w w' r H Hw; cbn [make_constraints] in H; [injection H as <- _; exact Hw| |injection H as <- _; exact Hw].
  destruct (make_constraint o w) as [w1 rm] eqn:Em.
  assert (Hw1 : forall id, w_code w1 id = None).
  { unfold make_constraint, add_parameter, new_constraint in Em. destruct (choose_name _ _ _) as [x|]; [|injection Em as <- _; exact Hw].
    destruct (choose_name _ _ _) as [y|]; [|injection Em as <- _; exact Hw].
    destruct (bound_expression _ _ _) as [[z|e]|ex]; injection Em as <- _; try exact Hw.
    intros id. cbn. unfold upd. destruct (Nat.eqb _ _); [reflexivity|apply Hw]. }
  destruct rm as [m|ex]; [|injection H as <- _; exact Hw1].
  destruct (make_constraints os w1) as [w2 [oms|ex]] eqn:E2; injection H as <- _; exact (IH _ _ _ E2 Hw1).
Qed.

Lemma put_plain p i w : interpreted p -> owned p -> (forall id, w_code w id = None) -> interpreted (put_world p i w) /\ owned (put_world p i w).
Proof. intros [H1 H2] Ho Hw. split; [split; [exact Hw|exact H2]|exact Ho]. Qed.

Lemma put_tinv p i w : tinv p -> tinv (put_world p i w).
Proof. intros H. apply (tinv_keep p); auto. Qed.

Lemma add_each_plain i sol oms : forall p p' r, add_each p i oms sol = (p', r) -> interpreted p -> owned p -> interpreted p' /\ owned p'.
Proof.
  induction oms as [|[o m] oms IH]; intros p p' r H Hi Ho; cbn [add_each] in H; [injection H as <- <-; auto|].
  unfold add_solution in H. destruct (evaluate _ _ _) as [v|ex]; cbn [bind] in H; [|injection H as <- <-; auto].
  destruct (put_plain p i (set_bound (world_of p i) m v) Hi Ho) as [A1 A2]; [|exact (IH _ _ _ H A1 A2)].
  intros id. unfold set_bound. cbn [set_param world_of w_code]. rewrite (proj1 Hi). cbn. apply (proj1 Hi).
Qed.

Lemma round_plain clk shuffle f q p h s i g oms q' o : tinv p -> interpreted p -> owned p -> round clk shuffle f q p h s i g oms = Some (q', o) -> plain q'.
Proof.
  intros Ht Hi Ho H. unfold round in H. destruct (step clk shuffle f p (Next g)) as [[p1 o1]|] eqn:Es; [|discriminate].
  pose proof (interpreted_step clk shuffle f p (Next g) p1 o1 Ht Ho Hi Logic.I Es) as Hi1. pose proof (owned_step clk shuffle f p (Next g) p1 o1 Ho Es) as Ho1.
  destruct o1 as [rr|ev|st]; [injection H as <- <-; split; assumption| |injection H as <- <-; split; assumption].
  destruct ev as [|sol| |ex]; try (injection H as <- <-; split; assumption).
  destruct (add_each p1 i oms sol) as [p2 r] eqn:Ea. destruct (add_each_plain i sol oms p1 p2 r Ea Hi1 Ho1) as [A1 A2].
  destruct r; injection H as <- <-; split; assumption.
Qed.

Lemma ostep_plain clk shuffle f q x q' o : tinv (q_base q) -> plain q -> ointerprets x -> ostep clk shuffle f q x = Some (q', o) -> plain q'.
Proof.
  intros Ht [Hi Ho] Hx H.
  assert (Hb : forall y p1 o1 q1, interprets y -> step clk shuffle f (q_base q) y = Some (p1, o1) -> q_base q1 = p1 -> plain q1).
  { intros y p1 o1 q1 Hy Es E. unfold plain. rewrite E. split; [eapply interpreted_step; eauto|eapply owned_step; eauto]. }
  destruct x as [y|s i os a]; [|cbn [ostep] in H; cbv zeta in H; destruct (_ && _); injection H as <- <-; split; assumption].
  destruct y as [|i a|pl t lm c|s v|s v|s v|s v|s i a|k|k|s]; cbn [ostep] in H; cbv zeta in H; cbn [ointerprets] in Hx.
  8:{ destruct (_ && _); [|injection H as <- <-; split; assumption].
      destruct (step clk shuffle f (q_base q) (Solve s i a)) as [[p1 o1]|] eqn:Es; [|discriminate]. injection H as <- <-. eapply Hb; eauto. }
  8:{ destruct (Nat.ltb k (q_nhandles q)); [|injection H as <- <-; split; assumption]. destruct (q_handles q k) as [g|s i st].
      - destruct (step clk shuffle f (q_base q) (Next g)) as [[p1 o1]|] eqn:Es; [|discriminate]. injection H as <- <-. eapply (Hb (Next g)); eauto; exact Logic.I.
      - unfold onext in H. cbv zeta in H. destruct st as [os a|g oms|].
        + destruct (make_constraints os (world_of (q_base q) i)) as [w [oms|ex]] eqn:Em.
          2:{ injection H as <- <-. apply put_plain; auto. eapply make_code; eauto. exact (proj1 Hi). }
          destruct (put_plain (q_base q) i w Hi Ho) as [A1 A2]; [eapply make_code; eauto; exact (proj1 Hi)|].
          destruct (step clk shuffle f (put_world (q_base q) i w) (Solve s i (with_objectives a oms))) as [[p2 o2]|] eqn:Es; [|discriminate].
          eapply round_plain; [| | |exact H].
          * eapply tinv_step; [|exact Es]. now apply put_tinv.
          * eapply interpreted_step; [| | | |exact Es]; auto; now apply put_tinv.
          * eapply owned_step; eauto.
        + eapply round_plain; eauto.
        + injection H as <- <-. split; assumption. }
  8:{ destruct (Nat.ltb k (q_nhandles q)); [|injection H as <- <-; split; assumption]. destruct (q_handles q k) as [g|s i st].
      - destruct (step clk shuffle f (q_base q) (Close g)) as [[p1 o1]|] eqn:Es; [|discriminate]. injection H as <- <-. eapply (Hb (Close g)); eauto; exact Logic.I.
      - injection H as <- <-. split; assumption. }
  all: match type of H with match ?st with _ => _ end = _ => destruct st as [[p1 o1]|] eqn:Es; [|discriminate] end; injection H as <- <-; eapply Hb; eauto.
Qed.

Lemma plain_init : plain init_oprog.
Proof. split; [exact interpreted_init|exact owned_init]. Qed.

Lemma orun_plain clk shuffle f B xs : forall q log q', oinv B q -> oproper_run clk shuffle f B q xs -> plain q -> Forall ointerprets xs ->
  orun clk shuffle f q xs = Some (log, q') -> plain q'.
Proof.
  induction xs as [|x xs IH]; intros q log q' Hi Hp Hq Hx H; cbn [orun oproper_run] in *; [injection H as <- <-; exact Hq|].
  destruct Hp as [P1 P2]. destruct (ostep clk shuffle f q x) as [[q1 o]|] eqn:Es; [|discriminate].
  destruct (orun clk shuffle f q1 xs) as [[log' q2]|] eqn:Er; [|discriminate]. injection H as <- <-. apply Forall_cons_iff in Hx. destruct Hx as [Hx1 Hx].
  eapply (IH q1); eauto; [exact (go_inv _ _ _ _ _ _ _ (ostep_goes clk shuffle f B q x q1 o Hi P1 Es))|].
  eapply ostep_plain; eauto. exact (oi_t _ _ Hi).
Qed.

Section Sim.
(** [cmp]: the solver compiles; otherwise nothing is compiled. *)
Variable cmp : bool.
Variable clk clk' : nat -> Z.
Variable shuffle : nat -> list name -> list name.
Variable f : nat.
Variable B : nat -> cbody.
Variable h : nat.

(** Generator [h] has ended. *)
Definition over (q : oprog) : Prop :=
  (exists s i, q_handles q h = HOptimize s i OEnd) \/ exists g, q_handles q h = HSolve g /\ go_state (p_gens (q_base q) g) = PRun GDone.

(** Generator [h] runs as [x'] does by itself in [e']. *)
Record live U cs oms par0 q g s i x e' x' : Prop := Live {
  lv_static : static U cs oms;
  lv_handle : q_handles q h = HSolve g /\ oms = [] \/ q_handles q h = HOptimize s i (ORun g oms);
  lv_gen : p_gens (q_base q) g = GenObj s i (PRun x);
  lv_within : within cs x;
  lv_twin : twin x x';
  lv_timed : timed e' x';
  lv_lt : forall r, U r -> (r < p_npar (q_base q))%nat;
  lv_own : forall r k, U r -> hidden_by q k r -> k = h;
  lv_needs : forall r, needs cs r -> U r;
  lv_known : forall c, In c cs -> known B (q_base q) c;
  lv_matched : matched cmp U cs oms par0 (q_base q) (e_world e')
}.

Definition otracks (q : oprog) (ys : list subst) (r : option exn) : Prop :=
  over q /\ ys = [] /\ r = None \/
  exists U cs oms par0 g s i x e' x' F k ysd ex, live U cs oms par0 q g s i x e' x' /\
    drain clk' (shuffle g) F (caller oms) k e' x' = Some (ysd, ex, r) /\ ys = filter (vals par0 oms) ysd.

Lemma live_inner U cs oms par0 q g s i x e' x' : live U cs oms par0 q g s i x e' x' -> inner q h g.
Proof. intros L. destruct (lv_handle _ _ _ _ _ _ _ _ _ _ _ L) as [[E _]|E]; [now left|right; eauto]. Qed.

(** The others leave it alone. *)
Lemma tracks_other q x q' o ys r : oinv B q -> (h < q_nhandles q)%nat -> oproper B q x -> ostep clk shuffle f q x = Some (q', o) ->
  x <> Plain (Next h) -> x <> Plain (Close h) -> assigns_none x -> (cmp = false -> plain q') -> otracks q ys r -> otracks q' ys r.
Proof.
  intros Hi Hh Hp Hs Hx Hc Ha Hpl Ht. pose proof (ostep_goes clk shuffle f B q x q' o Hi Hp Hs) as G.
  destruct Ht as [(Ho & Hr)|(U & cs & oms & par0 & g & s & i & y & e' & y' & F & k & ysd & ex & L & Hd)].
  - left. split; [|exact Hr]. destruct Ho as [(s & i & E)|(g & E & Eg)].
    + left. exists s, i. now rewrite (go_handles _ _ _ _ _ _ _ G h Hh Hx Hc).
    + right. exists g. rewrite (go_handles _ _ _ _ _ _ _ G h Hh Hx Hc), (go_gens _ _ _ _ _ _ _ G h g (or_introl E) Hx Hc). auto.
  - right. exists U, cs, oms, par0, g, s, i, y, e', y', F, k, ysd, ex. split; [|exact Hd].
    pose proof (live_inner _ _ _ _ _ _ _ _ _ _ _ L) as Hin. destruct L as [L1 L2 L3 L4 L5 L6 L7 L8 L9 L10 L11].
    destruct (go_hides _ _ _ _ _ _ _ G) as [N1 N2].
    assert (HR : forall r, assigned q x r -> ~ U r).
    { intros r0 Hr Hu. destruct x as [x|s0 i0 os a]; [|contradiction]. destruct x as [|j [d nm|nm|v nm|ca|xs|b|r1 v|b|c0]| | | | | | |k0| |]; cbn in Hr, Ha; try contradiction.
      destruct Hr as [Hr|Hr]; [|specialize (L7 r0 Hu); lia]. apply Hx. f_equal. f_equal. now apply (L8 r0). }
    destruct (small_current clk shuffle f B _ U cs _ _ (go_small _ _ _ _ _ _ _ G) (oi_t _ _ Hi) (oi_p _ _ Hi) HR L7 L9 L10) as [K1 K2].
    pose proof (small_sizes _ _ _ _ _ _ _ (go_small _ _ _ _ _ _ _ G) (oi_t _ _ Hi)) as Hz.
    constructor; auto.
    + now rewrite (go_handles _ _ _ _ _ _ _ G h Hh Hx Hc).
    + now rewrite (go_gens _ _ _ _ _ _ _ G h g Hin Hx Hc).
    + intros r0 Hu. specialize (L7 r0 Hu). lia.
    + intros r0 k0 Hu Hk. destruct (N2 k0 r0 Hk) as [H|H]; [now apply (L8 r0)|]. specialize (L7 r0 Hu). lia.
    + intros c Hc0. eapply known_later; [|now apply L10]. lia.
    + destruct L11 as [M1 M2 M3 M4]. constructor; auto; [intros r0 Hu; rewrite K1 by exact Hu; auto|].
      intros c e Hc0 Eb. destruct cmp eqn:Ec; [exact (K2 M2 c e Hc0 Eb)|]. exact (proj1 (proj1 (Hpl eq_refl)) (c_id c)).
Qed.

(** After [next()] of the generator behind [h], in the program and by itself. *)
Record met U cs oms par0 p g s i z e1' z' : Prop := Met {
  me_static : static U cs oms;
  me_gen : p_gens p g = GenObj s i (PRun z);
  me_within : within cs z;
  me_twin : twin z z';
  me_timed : timed e1' z';
  me_lt : forall r, U r -> (r < p_npar p)%nat;
  me_needs : forall r, needs cs r -> U r;
  me_known : forall c, In c cs -> known B p c;
  me_matched : local_of z <> None -> matched cmp U cs oms par0 p (e_world e1')
}.

(** What was found by itself, solution by solution. *)
Definition finds g oms e1' z' ev ysd (r : option exn) : Prop :=
  match ev with
  | EvYield s => match add_solutions oms (e_world e1') s with
                 | Err x => ysd = [s] /\ r = Some x
                 | Ok w => exists ys' F' k' ex, ysd = s :: ys' /\ drain clk' (shuffle g) F' (caller oms) k' (set_world e1' w) z' = Some (ys', ex, r)
                 end
  | EvStop => ysd = [] /\ r = None /\ z' = GDone
  | EvRaise x => ysd = [] /\ r = Some x /\ z' = GDone
  | EvNone => False
  end.

Lemma timed_world e w z : timed e z -> timed (set_world e w) z.
Proof. destruct z; auto. Qed.

Lemma settle_opt q p g s i z e1' z' ev ysd r U cs oms par0 q' o :
  met U cs oms par0 p g s i z e1' z' -> (forall r k, U r -> k <> h -> ~ hidden_by q k r) ->
  (forall s, ev = EvYield s -> local_of z <> None) -> finds g oms e1' z' ev ysd r ->
  match ev with
  | EvYield sol =>
      match add_each p i oms sol with
      | (p'', Ok _) => Some (set_handle q p'' h (HOptimize s i (ORun g oms)), OEvent (EvYield sol))
      | (p'', Err ex) => Some (set_handle q p'' h (HOptimize s i OEnd), OEvent (EvRaise ex))
      end
  | _ => Some (set_handle q p h (HOptimize s i OEnd), OEvent ev)
  end = Some (q', o) ->
  exists ys' r' ev', otracks q' ys' r' /\ o = OEvent ev' /\ forall n, answers (S n) (filter (vals par0 oms) ysd) r = ev' :: answers n ys' r'.
Proof.
  intros M Hh Hl Hf H. assert (Hov : forall p0, over (set_handle q p0 h (HOptimize s i OEnd))) by (intros p0; left; exists s, i; apply set_same).
  destruct ev as [|sol| |x].
  - contradiction.
  - specialize (Hl sol eq_refl). destruct M as [M1 M2 M3 M4 M5 M6 M7 M8 M9]. specialize (M9 Hl).
    pose proof (add_agree cmp U cs oms par0 i sol M1 oms p (e_world e1') (incl_refl _) M9) as Ha. cbn [finds] in Hf.
    destruct (add_each p i oms sol) as [p2 [u|ex]] eqn:Ea; destruct (add_solutions oms (e_world e1') sol) as [w|ex']; try contradiction.
    + injection H as <- <-. destruct Ha as [Ha Hv]. destruct Hf as (ys' & F' & k' & ex & -> & Hd).
      exists (filter (vals par0 oms) ys'), r, (EvYield sol). split; [|split; [reflexivity|intros n; cbn [filter]; rewrite Hv; reflexivity]].
      destruct (add_each_keeps i sol oms p p2 (Ok u) Ea) as (_ & _ & _ & _ & _ & _ & _ & G1 & G2).
      right. exists U, cs, oms, par0, g, s, i, z, (set_world e1' w), z', F', k', ys', ex. split; [|auto].
      assert (Hn : p_npar p2 = p_npar p /\ p_ncon p2 = p_ncon p).
      { clear - Ea. revert p p2 u Ea. induction oms as [|[o m] oms' IH]; intros p p2 u Ea; cbn [add_each] in Ea; [injection Ea as <- _; auto|].
        unfold add_solution in Ea. destruct (evaluate _ _ _) as [v|]; cbn [bind] in Ea; [|discriminate]. destruct (IH _ _ _ Ea) as [-> ->]. cbn.
        unfold set_bound. destruct (w_code _ _); [|auto]. unfold ccompile. destruct (c_body (mm_cons m)); auto. }
      destruct Hn as [Hn1 Hn2].
      constructor; auto; cbn [q_base set_handle].
      * right. apply set_same.
      * now rewrite G1.
      * intros r0 Hu. rewrite Hn1. auto.
      * intros r0 k0 Hu Hk. destruct (Nat.eq_dec k0 h) as [|Hne]; [assumption|]. exfalso. apply (Hh r0 k0 Hu Hne).
        destruct Hk as (s0 & i0 & g0 & oms0 & o0 & m0 & E & Hr). rewrite set_other in E by exact Hne. exists s0, i0, g0, oms0, o0, m0. auto.
      * intros c Hc. eapply known_later; [|now apply M8]. lia.
    + injection H as <- <-. destruct Ha as [<- Hv]. destruct Hf as [-> ->]. exists [], None, (EvRaise ex).
      split; [left; auto|]. split; [reflexivity|]. intros n. cbn [filter]. rewrite Hv. cbn. now rewrite answers_nil.
  - injection H as <- <-. destruct Hf as (-> & -> & _). exists [], None, EvStop. split; [left; auto|]. split; [reflexivity|]. intros n. cbn. now rewrite answers_nil.
  - injection H as <- <-. destruct Hf as (-> & -> & _). exists [], None, (EvRaise x). split; [left; auto|]. split; [reflexivity|]. intros n. cbn. now rewrite answers_nil.
Qed.

Lemma settle_solve q p g s i z e1' z' ev ysd r U cs par0 :
  met U cs [] par0 p g s i z e1' z' -> (forall r k, U r -> k <> h -> ~ hidden_by q k r) -> q_handles q h = HSolve g ->
  (forall s, ev = EvYield s -> local_of z <> None) -> finds g [] e1' z' ev ysd r ->
  exists ys' r', otracks (with_base q p) ys' r' /\ forall n, answers (S n) (filter (vals par0 []) ysd) r = ev :: answers n ys' r'.
Proof.
  intros M Hh Eh Hl Hf. assert (Hdone : z' = GDone -> over (with_base q p)).
  { intros ->. right. exists g. split; [exact Eh|]. cbn. rewrite (me_gen _ _ _ _ _ _ _ _ _ _ _ M). cbn.
    pose proof (me_twin _ _ _ _ _ _ _ _ _ _ _ M) as Ht. destruct z; cbn in Ht; try contradiction. reflexivity. }
  destruct ev as [|sol| |x]; cbn [finds] in Hf.
  - contradiction.
  - specialize (Hl sol eq_refl). destruct M as [M1 M2 M3 M4 M5 M6 M7 M8 M9]. specialize (M9 Hl). cbn [add_solutions] in Hf.
    destruct Hf as (ys' & F' & k' & ex & -> & Hd). exists (filter (vals par0 []) ys'), r. split; [|reflexivity].
    right. exists U, cs, [], par0, g, s, i, z, (set_world e1' (e_world e1')), z', F', k', ys', ex. split; [|auto].
    constructor; auto.
    + intros r0 k0 Hu Hk. destruct (Nat.eq_dec k0 h) as [|Hne]; [assumption|]. exfalso. exact (Hh r0 k0 Hu Hne Hk).
  - destruct Hf as (-> & -> & E). exists [], None. split; [left; auto|]. intros n. cbn. now rewrite answers_nil.
  - destruct Hf as (-> & -> & E). exists [], None. split; [left; auto|]. intros n. cbn. now rewrite answers_nil.
Qed.

(** [next()] of a running generator. *)
Lemma live_next U cs oms par0 q g s i x e' x' F k ysd ex r p' o : oinv B q -> live U cs oms par0 q g s i x e' x' ->
  drain clk' (shuffle g) F (caller oms) k e' x' = Some (ysd, ex, r) -> step clk shuffle f (q_base q) (Next g) = Some (p', o) ->
  exists z e1' z' ev, o = OEvent ev /\ met U cs oms par0 p' g s i z e1' z' /\ (forall s, ev = EvYield s -> local_of z <> None) /\ finds g oms e1' z' ev ysd r.
Proof.
  intros Hi L Hd Hs. pose proof (oi_gen _ _ Hi h g (live_inner _ _ _ _ _ _ _ _ _ _ _ L)) as Hg.
  pose proof (step_sizes _ _ _ _ _ _ _ (oi_t _ _ Hi) Hs) as Hz.
  destruct (step_next clk shuffle f (q_base q) g p' o Hs Hg) as (e1 & z & ev & En & Eo & Ep).
  destruct L as [L1 L2 L3 L4 L5 L6 L7 L8 L9 L10 L11].
  assert (Est : starting (q_base q) g = x) by (unfold starting; now rewrite L3).
  assert (Hst : started x) by (destruct (oi_t _ _ Hi) as (H1 & _); specialize (H1 g); rewrite L3 in H1; apply H1).
  pose proof (starting_timed (q_base q) g (oi_t _ _ Hi)) as Ht. rewrite Est in En, Ht.
  assert (Hev : same_eval (e_world (own_env (q_base q) g)) (e_world e') cs) by (exact (matched_eval cmp U cs oms par0 (q_base q) (e_world e') _ L11 L9)).
  destruct (next_agree clk clk' (shuffle g) cs f _ e' x x' Hst Hev L4 L5 Ht L6)
    as [[H _]|(e2 & g2 & e1' & g1' & ev' & E & E' & Htw1 & Ht1 & Ht1' & Hst1 & Hw1 & Ew1 & Ew1')]; [congruence|].
  rewrite En in E. injection E as <- <- <-.
  destruct (drain_caller clk' (shuffle g) oms F k e' x' ysd ex r Hd) as (e3 & g3 & ev3 & E3 & Hevs).
  pose proof (next_det _ _ _ _ _ _ _ _ E' E3) as Eq. injection Eq as <- <- <-.
  exists z, e1', g1', ev. split; [exact Eo|]. split; [|split].
  - constructor; auto.
    + rewrite Ep. cbn. rewrite upd_same, L3. reflexivity.
    + intros r0 Hu. specialize (L7 r0 Hu). lia.
    + intros c Hc. eapply known_later; [|now apply L10]. lia.
    + intros _. rewrite Ew1'. destruct L11 as [M1 M2 M3 M4]. constructor; auto.
      * intros r0 Hu. rewrite Ep. cbn. rewrite Ew1. now apply M1.
      * intros c e0 Hc Hb. rewrite Ep. cbn. rewrite Ew1. exact (M2 c e0 Hc Hb).
  - intros s0 ->. eapply next_yield; eauto.
  - unfold finds. destruct ev as [|s0| |x0]; auto. destruct (add_solutions oms (e_world e1') s0) as [w|y]; [|auto].
    destruct Hevs as (ys' & F' & k' & -> & Hd'). exists ys', F', k', ex. auto.
Qed.

(** [next()] of generator [h] itself. *)
Lemma tracks_next q q' o ys r : oinv B q -> (h < q_nhandles q)%nat -> ostep clk shuffle f q (Plain (Next h)) = Some (q', o) -> otracks q ys r ->
  exists ys' r' ev, otracks q' ys' r' /\ o = OEvent ev /\ forall n, answers (S n) ys r = ev :: answers n ys' r'.
Proof.
  intros Hi Hh Hs Ht. cbn [ostep] in Hs. cbv zeta in Hs. rewrite (proj2 (Nat.ltb_lt _ _) Hh) in Hs.
  destruct Ht as [(Ho & -> & ->)|(U & cs & oms & par0 & g & s & i & x & e' & x' & F & k & ysd & ex & L & Hd & ->)].
  - exists [], None, EvStop. destruct Ho as [(s & i & E)|(g & E & Eg)]; rewrite E in Hs; cbn [onext] in Hs.
    + injection Hs as <- <-. split; [left; split; [left; eauto|auto]|]. split; [reflexivity|]. intros n. cbn. now rewrite answers_nil.
    + destruct (step clk shuffle f (q_base q) (Next g)) as [[p' o']|] eqn:Es; [|discriminate]. injection Hs as <- <-.
      destruct (step_next clk shuffle f (q_base q) g p' o' Es (oi_gen _ _ Hi h g (or_introl E))) as (e1 & z & ev & En & -> & ->).
      unfold starting in En. rewrite Eg in En. destruct f as [|f']; [discriminate|]. cbn [next micro] in En. injection En as <- <- <-.
      split; [|split; [reflexivity|intros n; cbn; now rewrite answers_nil]]. left. split; [|auto]. right. exists g. split; [exact E|]. cbn. now rewrite upd_same.
  - assert (Hhid : forall r k, U r -> k <> h -> ~ hidden_by q k r).
    { intros r0 k0 Hu Hne Hk. apply Hne. eapply (lv_own _ _ _ _ _ _ _ _ _ _ _ L); eauto. }
    destruct (lv_handle _ _ _ _ _ _ _ _ _ _ _ L) as [[Eh Eo]|Eh]; rewrite Eh in Hs; cbn [onext] in Hs.
    + destruct (step clk shuffle f (q_base q) (Next g)) as [[p' o']|] eqn:Es; [|discriminate]. injection Hs as <- <-.
      destruct (live_next _ _ _ _ _ _ _ _ _ _ _ _ _ _ _ _ _ _ Hi L Hd Es) as (z & e1' & z' & ev & -> & M & Hl & Hf). subst oms.
      destruct (settle_solve q p' g s i z e1' z' ev ysd r U cs par0 M Hhid Eh Hl Hf) as (ys' & r' & T & A). exists ys', r', ev. auto.
    + unfold round in Hs. destruct (step clk shuffle f (q_base q) (Next g)) as [[p' o']|] eqn:Es; [|discriminate].
      destruct (live_next _ _ _ _ _ _ _ _ _ _ _ _ _ _ _ _ _ _ Hi L Hd Es) as (z & e1' & z' & ev & -> & M & Hl & Hf).
      apply (settle_opt q p' g s i z e1' z' ev ysd r U cs oms par0 q' o M Hhid Hl Hf). rewrite <- Hs. destruct ev; reflexivity.
Qed.

Lemma ofollow xs : forall q ys r log q', oinv B q -> (h < q_nhandles q)%nat -> otracks q ys r -> oproper_run clk shuffle f B q xs ->
  orun clk shuffle f q xs = Some (log, q') -> ~ In (Plain (Close h)) xs -> Forall assigns_none xs -> (cmp = false -> plain q /\ Forall ointerprets xs) ->
  oresults_of h log = answers (onext_calls h xs) ys r.
Proof.
  induction xs as [|x xs IH]; intros q ys r log q' Hi Hh Ht Hp Hr Hcl Hn Hpl; cbn [orun oproper_run] in Hr, Hp; [injection Hr as <- <-; reflexivity|].
  destruct Hp as [P1 P2]. destruct (ostep clk shuffle f q x) as [[q1 o]|] eqn:Es; [|discriminate].
  destruct (orun clk shuffle f q1 xs) as [[log' q2]|] eqn:Er; [|discriminate]. injection Hr as <- <-.
  pose proof (ostep_goes clk shuffle f B q x q1 o Hi P1 Es) as G. pose proof (go_inv _ _ _ _ _ _ _ G) as Hi1. pose proof (go_count _ _ _ _ _ _ _ G) as Hc.
  apply Forall_cons_iff in Hn. destruct Hn as [Hn1 Hn2].
  assert (Hpl1 : cmp = false -> plain q1 /\ Forall ointerprets xs).
  { intros Ec. destruct (Hpl Ec) as [A1 A2]. apply Forall_cons_iff in A2. destruct A2 as [A2 A3]. split; [|exact A3].
    eapply ostep_plain; eauto. exact (oi_t _ _ Hi). }
  assert (Hcl1 : ~ In (Plain (Close h)) xs) by (intros H; apply Hcl; now right).
  assert (Hx : x <> Plain (Close h)) by (intros ->; apply Hcl; now left).
  assert (Hcase : x = Plain (Next h) \/ x <> Plain (Next h)).
  { destruct x as [x|]; [|right; discriminate]. destruct x; try (right; discriminate). destruct (Nat.eq_dec g h) as [->|]; [now left|right; congruence]. }
  destruct Hcase as [->|Hne].
  - destruct (tracks_next q q1 o ys r Hi Hh Es Ht) as (ys' & r' & ev & T & -> & A).
    change (oresults_of h ((Plain (Next h), OEvent ev) :: log')) with ((if Nat.eqb h h then [ev] else []) ++ oresults_of h log').
    replace (onext_calls h (Plain (Next h) :: xs)) with (S (onext_calls h xs)) by (unfold onext_calls; cbn [filter]; now rewrite Nat.eqb_refl).
    rewrite Nat.eqb_refl, A. cbn [app]. f_equal. eapply IH; eauto; lia.
  - pose proof (tracks_other q x q1 o ys r Hi Hh P1 Es Hne Hx Hn1 (fun Ec => proj1 (Hpl1 Ec)) Ht) as T.
    replace (oresults_of h ((x, o) :: log')) with (oresults_of h log').
    2:{ destruct x as [x|]; [|reflexivity]. destruct x as [| | | | | | | |k0| |]; try reflexivity. destruct o; try reflexivity.
        cbn. destruct (Nat.eqb_spec k0 h); [congruence|reflexivity]. }
    replace (onext_calls h (x :: xs)) with (onext_calls h xs).
    2:{ unfold onext_calls. cbn [filter]. destruct x as [x|]; [|reflexivity]. destruct x as [| | | | | | | |k0| |]; try reflexivity. destruct (Nat.eqb_spec k0 h); [congruence|reflexivity]. }
    eapply IH; eauto; lia.
Qed.

(** The first [next()] of the generator of [solve] behind [h]. *)
Lemma begin_met U oms par0 p g s i a p' o F k ysd ex r : tinv p -> pinv B p -> (g < p_ngens p)%nat -> p_gens p g = GenObj s i (PNew a) ->
  let cs := all_cons (p_models p i) a in
  s_compile (so_opts (p_solvers p s)) = cmp -> (cmp = false -> forall id, p_code p id = None) -> timeout_of (so_opts (p_solvers p s)) a = LNone ->
  static U cs oms -> (forall r, U r -> (r < p_npar p)%nat) -> (forall r, needs cs r -> U r) ->
  (forall o m r, In (o, m) oms -> uses r (o_expr o) -> p_par p r = par0 r) ->
  drain clk' (shuffle g) F (caller oms) k (env_of p s i) (GInit (so_opts (p_solvers p s)) a) = Some (ysd, ex, r) ->
  step clk shuffle f p (Next g) = Some (p', o) ->
  exists z e1' z' ev, o = OEvent ev /\ met U cs oms par0 p' g s i z e1' z' /\ (forall s, ev = EvYield s -> local_of z <> None) /\ finds g oms e1' z' ev ysd r.
Proof.
  intros Ht Hi Hg Eg cs Hcmp Hnone Hto St Hlt Hneeds Hobj Hd Hs.
  assert (Hk : forall c, In c cs -> known B p c) by exact (pinv_cons B p g s i a Hi Eg).
  assert (Ho : objects (world_of p i) cs).
  { apply (pinv_valid B p (fun l => l) s i a Hi); [|intros l; apply Permutation_refl]. intros c Hc. apply Hk. apply in_or_app. now right. }
  pose proof (step_sizes _ _ _ _ _ _ _ Ht Hs) as Hz.
  destruct (step_next clk shuffle f p g p' o Hs Hg) as (e1 & z & ev & En & Eo & Ep).
  set (sv := so_opts (p_solvers p s)) in *.
  assert (Est : starting p g = GInit sv a) by (unfold starting; rewrite Eg; reflexivity).
  assert (Eenv : own_env p g = env_of p s i) by (unfold own_env; now rewrite Eg).
  rewrite Est, Eenv in En.
  destruct (next_agree_init clk clk' (shuffle g) f (env_of p s i) (env_of p s i) sv a eq_refl Ho Ho (fun c s0 H => eq_refl) Hto)
    as [[H _]|(e2 & g2 & e1' & g1' & ev' & E & E' & Htw1 & Ht1 & Ht1' & Hst1 & Hw1 & Hlw)]; [congruence|].
  rewrite En in E. injection E as <- <- <-.
  destruct (drain_caller clk' (shuffle g) oms F k _ _ ysd ex r Hd) as (e3 & g3 & ev3 & E3 & Hevs).
  pose proof (next_det _ _ _ _ _ _ _ _ E' E3) as Eq. injection Eq as <- <- <-.
  exists z, e1', g1', ev. split; [exact Eo|]. split; [|split].
  - constructor; auto.
    + rewrite Ep. cbn. rewrite upd_same, Eg. reflexivity.
    + intros r0 Hu. specialize (Hlt r0 Hu). lia.
    + intros c Hc. eapply known_later; [|now apply Hk]. lia.
    + intros Hl. destruct (Hlw Hl) as (_ & Ew1 & Ew1'). cbn [env_of e_world world_of w_model] in Ew1, Ew1'.
      fold (world_of p i) in Ew1, Ew1'. fold cs in Ew1, Ew1'. rewrite Hcmp in Ew1, Ew1'.
      assert (Hc : wcurrent cmp cs (compile_all cmp (world_of p i) cs)).
      { intros c e0 Hc Eb. destruct cmp eqn:Ec.
        - rewrite compile_all_par. apply compile_all_in; auto. intros c' Hc' E. now apply (proj1 Ho).
        - rewrite compile_all_false. apply Hnone. reflexivity. }
      constructor; rewrite ?Ew1'.
      * intros r0 Hu. rewrite Ep. cbn. now rewrite Ew1, !compile_all_par.
      * intros c e0 Hc0 Eb. rewrite Ep. cbn. rewrite Ew1. now apply Hc.
      * exact Hc.
      * intros o0 m r0 Hin Hr. rewrite compile_all_par. now apply (Hobj o0 m).
  - intros s0 ->. eapply next_yield; eauto.
  - unfold finds. destruct ev as [|s0| |x0]; auto. destruct (add_solutions oms (e_world e1') s0) as [w|y]; [|auto].
    destruct Hevs as (ys' & F' & k' & -> & Hd'). exists ys', F', k', ex. auto.
Qed.

Lemma nodup_parts {A} (l l' : list A) : NoDup (l ++ l') -> NoDup l' /\ forall x, In x l -> ~ In x l'.
Proof.
  induction l as [|y l IH]; cbn; intros H; [auto|]. inversion H as [|? ? H1 H2]; subst. destruct (IH H2) as [A1 A2]. split; [exact A1|].
  intros x [->|Hx]; [intros Hx; apply H1, in_or_app; now right|now apply A2].
Qed.

Lemma flat_apart {A C} (g : A -> list C) l a b x : NoDup (flat_map g l) -> In a l -> In b l -> In x (g a) -> In x (g b) -> a = b.
Proof.
  induction l as [|y l IH]; cbn; [contradiction|]. intros Hn Ha Hb Hxa Hxb. destruct (nodup_parts _ _ Hn) as [N2 N3].
  destruct Ha as [->|Ha], Hb as [->|Hb]; auto.
  - elim (N3 x Hxa). apply in_flat_map. eauto.
  - elim (N3 x Hxb). apply in_flat_map. eauto.
Qed.

Lemma vals_valued par oms s : vals par oms s = valued par (map (fun om => OObj (fst om)) oms) s.
Proof. unfold vals, valued. induction oms as [|[o m] oms IH]; [reflexivity|]. cbn. now rewrite IH. Qed.

(** The first [next()] of generator [h]. *)
Lemma tracks_start q q' o s a F ys ex r : oinv B q -> (h < q_nhandles q)%nat -> oproper B q (Plain (Next h)) -> fresh q h s a ->
  s_compile (so_opts (p_solvers (q_base q) s)) = cmp -> (cmp = false -> plain q) -> timeout_of (so_opts (p_solvers (q_base q) s)) a = LNone ->
  by_itself clk' shuffle F q h = Some (ys, ex, r) -> ostep clk shuffle f q (Plain (Next h)) = Some (q', o) ->
  exists ys' r' ev, otracks q' ys' r' /\ o = OEvent ev /\
    forall n, answers (S n) (filter (valued (p_par (q_base q)) (objectives_of q h)) ys) r = ev :: answers n ys' r'.
Proof.
  intros Hi Hh Hpr Hfr Hcmp Hpl Hto Hal Hs. cbn [ostep] in Hs. cbv zeta in Hs. rewrite (proj2 (Nat.ltb_lt _ _) Hh) in Hs.
  unfold by_itself, objectives_of in *. cbv zeta in Hal. destruct Hfr as [(g & i & Eh & Eg)|(i & os & Eh)]; rewrite Eh in *.
  - rewrite Eg in Hal. destruct (step clk shuffle f (q_base q) (Next g)) as [[p' o']|] eqn:Es; [|discriminate]. injection Hs as <- <-.
    set (cs := all_cons (p_models (q_base q) i) a).
    assert (Hv : forall r, needs cs r -> (r < p_npar (q_base q))%nat /\ ~ hidden q r).
    { intros r0 (c & e & Hc & Eb & Hr). apply in_app_or in Hc. destruct Hc as [Hc|Hc].
      - exact (oi_models _ _ Hi i c Hc e Eb r0 Hr).
      - assert (E : go_state (p_gens (q_base q) g) = PNew a) by (now rewrite Eg). exact (oi_unstarted _ _ Hi g a c E Hc e Eb r0 Hr). }
    assert (Hk : forall c, In c cs -> known B (q_base q) c) by exact (pinv_cons B _ g s i a (oi_p _ _ Hi) Eg).
    assert (St : static (needs cs) cs []).
    { constructor; try (intros; contradiction). intros c c' Hc Hc' E. destruct (Hk c Hc) as [_ <-], (Hk c' Hc') as [_ <-]. now rewrite E. }
    destruct (begin_met (needs cs) [] (p_par (q_base q)) (q_base q) g s i a p' o' F 0 ys ex r (oi_t _ _ Hi) (oi_p _ _ Hi)
      (oi_gen _ _ Hi h g (or_introl Eh)) Eg Hcmp (fun Ec => proj1 (proj1 (Hpl Ec))) Hto St) as (z & e1' & z' & ev & -> & M & Hl & Hf); auto.
    { intros r0 Hr. now apply Hv. }
    assert (Hhid : forall r k, needs cs r -> k <> h -> ~ hidden_by q k r).
    { intros r0 k0 Hr _ Hk0. apply (proj2 (Hv r0 Hr)). now exists k0. }
    destruct (settle_solve q p' g s i z e1' z' ev ys r (needs cs) cs _ M Hhid Eh Hl Hf) as (ys' & r' & T & A). exists ys', r', ev. auto.
  - cbn [onext] in Hs. cbv zeta in Hs. unfold optimize_all in Hal. change (e_world (env_of (q_base q) s i)) with (world_of (q_base q) i) in Hal.
    destruct (make_constraints os (world_of (q_base q) i)) as [w [oms|ex0]] eqn:Em.
    2:{ injection Hs as <- <-. injection Hal as <- <- <-. exists [], None, (EvRaise ex0). split; [left; split; [left; exists s, i; apply set_same|auto]|].
        split; [reflexivity|]. intros n. cbn. now rewrite answers_nil. }
    destruct (start_parts clk shuffle f B q h s i os a w oms Hi Eh Hpr Em) as (Hst & M & Eos & Hsm & Hkn & (aux & Hx) & Hmod).
    set (p1 := put_world (q_base q) i w) in *. rewrite Hst in Hs. cbn [fst snd] in Hs.
    set (p2 := Prog (p_par p1) _ _ _ _ _ _ _ _ _ _ _ _) in *.
    destruct (small_inv _ _ _ _ _ _ _ (Hsm (fun _ => False)) (oi_t _ _ Hi) (oi_p _ _ Hi)) as [Ht2 Hp2].
    destruct (oi_new _ _ Hi h s i os a Eh) as [N1 N2].
    unfold round in Hs. destruct (step clk shuffle f p2 (Next (p_ngens p1))) as [[p' o']|] eqn:Es; [|discriminate].
    set (a' := with_objectives a oms) in *. set (cs := all_cons (p_models p2 i) a').
    assert (Eg : p_gens p2 (p_ngens p1) = GenObj s i (PNew a')) by (apply upd_same).
    assert (Hpars : forall o m r, In (o, m) oms -> r = mm_not_set m \/ r = mm_bound m -> (p_npar (q_base q) <= r < p_npar p2)%nat).
    { intros o0 m r0 Hin Hr. apply (md_pars _ _ _ M o0 m r0 Hin). unfold aux_params. cbn. intuition. }
    destruct Hx as (X1 & X2 & X3 & X4 & X5 & X6). cbn in X3, X4, X5, X6.
    assert (Hvis : forall o m r, In (o, m) oms -> uses r (o_expr o) -> (r < p_npar (q_base q))%nat /\ ~ hidden q r).
    { intros o0 m r0 Hin Hr. apply (N2 o0); [|exact Hr]. rewrite Eos. apply in_map_iff. exists (o0, m). auto. }
    assert (Hcs : forall c, In c cs -> visible_body q (c_body c) \/ exists o m, In (o, m) oms /\ c = mm_cons m).
    { intros c Hc. apply in_app_or in Hc. destruct Hc as [Hc|Hc]; [left; rewrite Hmod in Hc; now apply (oi_models _ _ Hi i)|].
      apply in_app_or in Hc. destruct Hc as [Hc|Hc]; [left; now apply N1|]. right. apply in_map_iff in Hc. destruct Hc as ([o0 m] & <- & Hin). eauto. }
    set (U := fun r => needs cs r \/ exists o m, In (o, m) oms /\ (r = mm_not_set m \/ r = mm_bound m \/ uses r (o_expr o))).
    assert (Hu : forall r, U r -> (exists o m, In (o, m) oms /\ (r = mm_not_set m \/ r = mm_bound m)) \/ (r < p_npar (q_base q))%nat /\ ~ hidden q r).
    { intros r0 [(c & e & Hc & Eb & Hr)|(o0 & m & Hin & Hr)].
      - destruct (Hcs c Hc) as [Hv|(o0 & m & Hin & ->)]; [right; now apply (Hv e Eb)|].
        destruct (md_shape _ _ _ M o0 m Hin) as [(x & y & Ebm)]. rewrite Ebm in Eb. injection Eb as <-.
        destruct (uses_bound r0 o0 _ x _ y Hr) as [E|[E|E]]; [left; eauto|left; eauto|right; eauto].
      - destruct Hr as [Hr|[Hr|Hr]]; [left; eauto|left; eauto|right; eauto]. }
    assert (Hk : forall c, In c cs -> known B p2 c) by exact (pinv_cons B p2 _ s i a' Hp2 Eg).
    assert (St : static U cs oms).
    { constructor.
      - intros c c' Hc Hc' E. destruct (Hk c Hc) as [_ <-], (Hk c' Hc') as [_ <-]. now rewrite E.
      - intros o0 m Hin. split; [|destruct (md_shape _ _ _ M o0 m Hin) as [(x & y & ->)]; eauto].
        apply in_or_app. right. apply in_or_app. right. apply in_map_iff. exists (o0, m). auto.
      - intros o0 m Hin. repeat split; [right; eauto 6|right; eauto 6|]. intros r0 Hr. right. eauto 7.
      - intros o0 m c e Hin Hc Eb Hr.
        assert (Hr' : exists r, (r = mm_not_set m \/ r = mm_bound m) /\ uses r e) by (destruct Hr; eauto). destruct Hr' as (r0 & Hr0 & Hr').
        pose proof (Hpars o0 m r0 Hin Hr0) as Hge.
        destruct (Hcs c Hc) as [Hv|(o2 & m2 & Hin' & ->)]; [destruct (Hv e Eb r0 Hr'); lia|].
        destruct (md_shape _ _ _ M o2 m2 Hin') as [(x & y & Ebm)]. rewrite Ebm in Eb. injection Eb as <-.
        assert (Ha : In r0 (aux_params m2)).
        { destruct (uses_bound r0 o2 _ x _ y Hr') as [E|[E|E]]; [cbn; auto|cbn; auto|]. destruct (Hvis o2 m2 r0 Hin' E). lia. }
        assert (E : (o2, m2) = (o0, m)); [|injection E as _ ->; reflexivity].
        apply (flat_apart (fun om => aux_params (snd om)) oms _ _ r0 (md_nodup_pars _ _ _ M)); auto. cbn. intuition.
      - intros o0 m o2 m2 Hin Hin'. split; intros Hr; destruct (Hvis o0 m _ Hin Hr) as [Hlt _].
        + pose proof (Hpars o2 m2 _ Hin' (or_introl eq_refl)). lia.
        + pose proof (Hpars o2 m2 _ Hin' (or_intror eq_refl)). lia. }
    assert (Een : set_world (env_of (q_base q) s i) w = env_of p2 s i).
    { unfold set_world, env_of, world_of. cbn. rewrite upd_same. destruct w; reflexivity. }
    fold (caller oms) in Hal. rewrite Een in Hal. 
    destruct (begin_met U oms (p_par (q_base q)) p2 (p_ngens p1) s i a' p' o' F 0 ys ex r Ht2 Hp2) as (z & e1' & z' & ev & -> & Mt & Hl & Hf); auto.
    { intros Ec id. cbn. eapply make_code; [exact Em|]. exact (proj1 (proj1 (Hpl Ec))). }
    { intros r0 Hr. destruct (Hu r0 Hr) as [(o0 & m & Hin & E)|[H _]]; [now apply (Hpars o0 m)|]. cbn. lia. }
    { intros r0 Hr. now left. }
    { intros o0 m r0 Hin Hr. cbn. apply X5. now apply (Hvis o0 m). }
    assert (Hhid : forall r k, U r -> k <> h -> ~ hidden_by q k r).
    { intros r0 k0 Hr _ Hk0. destruct (Hu r0 Hr) as [(o0 & m & Hin & E)|[_ H]]; [|apply H; now exists k0].
      pose proof (Hpars o0 m r0 Hin E) as Hge. destruct Hk0 as (s0 & i0 & g0 & oms0 & o1 & m1 & E1 & Hin1 & Er).
      destruct (oi_run _ _ Hi k0 s0 i0 g0 oms0 o1 m1 E1 Hin1) as (_ & A1 & A2). destruct Er; lia. }
    destruct (settle_opt q p' (p_ngens p1) s i z e1' z' ev ys r U cs oms (p_par (q_base q)) q' o Mt Hhid Hl Hf) as (ys' & r' & ev' & T & Eo & A).
    { rewrite <- Hs. destruct ev; reflexivity. }
    exists ys', r', ev'. split; [exact T|]. split; [exact Eo|]. intros n. rewrite <- A. f_equal. apply filter_ext. intros s0. now rewrite vals_valued, <- Eos.
Qed.

End Sim.

Lemma orun_app clk shuffle f xs : forall q ys log q', orun clk shuffle f q (xs ++ ys) = Some (log, q') ->
  exists log1 m log2, orun clk shuffle f q xs = Some (log1, m) /\ orun clk shuffle f m ys = Some (log2, q') /\ log = log1 ++ log2.
Proof.
  induction xs as [|x xs IH]; intros q ys log q' H; [exists [], q, log; auto|]. cbn [app orun] in *.
  destruct (ostep clk shuffle f q x) as [[p1 o]|]; [|discriminate].
  destruct (orun clk shuffle f p1 (xs ++ ys)) as [[log' q1]|] eqn:E; [|discriminate]. injection H as <- <-.
  destruct (IH _ _ _ _ E) as (log1 & m & log2 & -> & E2 & ->). exists ((x, o) :: log1), m, log2. auto.
Qed.

Lemma oproper_app clk shuffle f B xs : forall q ys log m, oproper_run clk shuffle f B q (xs ++ ys) -> orun clk shuffle f q xs = Some (log, m) ->
  oproper_run clk shuffle f B q xs /\ oproper_run clk shuffle f B m ys.
Proof.
  induction xs as [|x xs IH]; intros q ys log m H E; cbn in *; [injection E as <- <-; auto|].
  destruct H as [H1 H2]. destruct (ostep clk shuffle f q x) as [[q1 o]|]; [|discriminate].
  destruct (orun clk shuffle f q1 xs) as [[log1 m1]|] eqn:Er; [|discriminate]. injection E as <- <-.
  destruct (IH _ _ _ _ H2 Er) as [A1 A2]. auto.
Qed.

Lemma interleaved cmp clk clk' shuffle f F B xs0 log0 q h s a xs log q' ys e r :
  orun clk shuffle f init_oprog xs0 = Some (log0, q) -> oproper_run clk shuffle f B init_oprog (xs0 ++ Plain (Next h) :: xs) ->
  (h < q_nhandles q)%nat -> fresh q h s a ->
  s_compile (so_opts (p_solvers (q_base q) s)) = cmp -> (cmp = false -> Forall ointerprets (xs0 ++ xs)) -> timeout_of (so_opts (p_solvers (q_base q) s)) a = LNone ->
  by_itself clk' shuffle F q h = Some (ys, e, r) ->
  orun clk shuffle f q (Plain (Next h) :: xs) = Some (log, q') -> ~ In (Plain (Close h)) xs -> Forall assigns_none xs ->
  oresults_of h log = answers (onext_calls h (Plain (Next h) :: xs)) (filter (valued (p_par (q_base q)) (objectives_of q h)) ys) r.
Proof.
  intros H0 Hp Hh Hfr Hcmp Hint Hto Hal Hr Hcl Hn.
  destruct (oproper_app clk shuffle f B xs0 _ _ _ _ Hp H0) as [Hp0 Hp1].
  pose proof (orun_inv clk shuffle f B xs0 _ _ _ (oinv_init B) Hp0 H0) as Hi.
  assert (Hpl : cmp = false -> plain q).
  { intros Ec. specialize (Hint Ec). apply Forall_app in Hint. eapply orun_plain; [apply (oinv_init B)|exact Hp0|exact plain_init|apply Hint|exact H0]. }
  cbn [orun oproper_run] in Hr, Hp1. destruct Hp1 as [P1 P2].
  destruct (ostep clk shuffle f q (Plain (Next h))) as [[q1 o]|] eqn:Es; [|discriminate].
  destruct (orun clk shuffle f q1 xs) as [[log' q2]|] eqn:Er; [|discriminate]. injection Hr as <- <-.
  pose proof (ostep_goes clk shuffle f B q _ q1 o Hi P1 Es) as G.
  destruct (tracks_start cmp clk clk' shuffle f B h q q1 o s a F ys e r Hi Hh P1 Hfr Hcmp Hpl Hto Hal Es) as (ys' & r' & ev & T & -> & A).
  change (oresults_of h ((Plain (Next h), OEvent ev) :: log')) with ((if Nat.eqb h h then [ev] else []) ++ oresults_of h log').
  replace (onext_calls h (Plain (Next h) :: xs)) with (S (onext_calls h xs)) by (unfold onext_calls; cbn [filter]; now rewrite Nat.eqb_refl).
  rewrite Nat.eqb_refl, A. cbn [app]. f_equal.
  apply (ofollow cmp clk clk' shuffle f B h xs q1 ys' r' log' q2); auto; [exact (go_inv _ _ _ _ _ _ _ G)|pose proof (go_count _ _ _ _ _ _ _ G); lia|].
  intros Ec. specialize (Hint Ec). apply Forall_app in Hint. split; [|apply Hint]. eapply ostep_plain; [exact (oi_t _ _ Hi)|now apply Hpl| |exact Es]. exact Logic.I.
Qed.
