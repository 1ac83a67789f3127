(** The partial assignments extended in a model built by a sequence of declarations. *)
From Coq Require Import Permutation.
From Verif Require Import PuzzleWatch SpecPuzzle SpecSafe SpecSolve SpecOrder SpecWatch ExprFacts ExprProps DictFacts
  CodeFacts ModelFacts SafeFacts CompileFacts SetupFacts LoopFacts MasterFacts SolverProps SolverMore SolverExtra
  WatchProps WatchCost PuzzleFacts.
Open Scope list_scope.
Open Scope Z_scope.

(** [t] violates no constraint all of whose names it binds, and no all-different constraint. *)
Definition tried (P : nat -> Z) (vs : dict (list Z)) (ps : list pbody) (t : subst) : Prop :=
  (forall x v, In (x, v) t -> exists d, In (x, d) vs /\ In v d) /\
  (forall f, In (PForm f) ps -> (forall x, In x (fvars f) -> In x (map fst t)) -> sat P (val t) (PForm f)) /\
  (forall xs x y v, In (PDiff xs) ps -> In x xs -> In y xs -> x <> y -> dget t x = Some v -> dget t y <> Some v).

(** The formulas keep their names when they are built. *)
Definition keeps_names (ps : list pbody) : Prop :=
  forall f ex, In (PForm f) ps -> build f = Ok (OExpr ex) -> incl (fvars f) (vars ex).

Section Run.
Variables (P : nat -> Z) (clk : nat -> Z) (shuffle : list name -> list name) (f : nat) (e : env) (sv : solver)
  (vs : dict (list Z)) (ps : list pbody) (ts ys : list subst) (e' : env) (r : option exn).
Hypothesis Hb : built P (e_world e) vs ps.
Hypothesis Hs : shuffles shuffle.
Hypothesis Hvs : vs <> [].
Hypothesis Hsafe : s_compile sv = true -> forall p, In p ps -> p_safe p.
Hypothesis Hto : s_timeout sv <> LInfinity.
Hypothesis Hli : s_limit sv <> LInfinity.
Hypothesis Hkeep : keeps_names ps.
Hypothesis Hrun : solve_watched clk shuffle f e sv no_args = Some (ts, ys, e', r).
Let m := w_model (e_world e).
Let cs := all_cons m no_args.
Hypothesis Hsol : m_solvable m = true.

Let Hv : valid shuffle e no_args := built_valid P e vs ps shuffle Hb Hs.
Let Hall : solve_all clk shuffle f e sv no_args = Some (ys, e', r) := watched_all clk shuffle f e sv no_args ts ys e' r Hrun.
Let Hcs : cs = m_cons m := b_cs e.

Lemma t_none : r = None.
Proof. exact (b_no_exception P clk shuffle f e sv vs ps ys e' r Hb Hs Hvs Hsafe Hto Hli Hall). Qed.

Lemma t_world : e_world e' = compile_all (s_compile sv) (e_world e) cs.
Proof.
  destruct (run_cases _ _ _ _ _ _ _ _ _ Hv Hall) as [(_ & _ & _ & Hc)|(_ & _ & _ & u & order & ys0 & r0 & _ & _ & Hw & _)].
  - exfalso. fold m in Hc. destruct Hc as [(C & _)|[(_ & C & _)|(_ & _ & _ & ex & E & _)]]; [congruence| |].
    + apply C. exact (b_hasvar P e vs ps Hb Hvs).
    + rewrite t_none in E. discriminate.
  - exact Hw.
Qed.

Lemma t_holds c t : In c cs -> (forall x v, In (x, v) t -> exists d, is_variable m x d /\ In v d) ->
  (forall x, mentions c x -> In x (map fst t)) -> (evaluates_true (e_world e') t c <-> holds P t c).
Proof.
  intros Hc Hd Hm. pose proof (proj1 (proj2 (proj2 (proj2 Hv)))) as Hid. fold m cs in Hid.
  destruct (holds_iff (e_world e) (s_compile sv) cs m c t Hid (b_faithful P e sv vs ps Hb Hsafe Hsol)
    (b_noerror P e vs ps Hb Hsol) Hc (b_concerns P e vs ps Hb c Hsol Hc) Hd Hm) as (b & E & Hiff).
  rewrite (b_par _ _ _ _ Hb) in Hiff. rewrite <- t_world in E. unfold evaluates_true. rewrite E. rewrite <- Hiff. split; congruence.
Qed.

Lemma t_consistent t : consistent (e_world e') m cs t <-> tried P vs ps t.
Proof.
  split.
  - intros (H1 & H2 & H3). split; [|split].
    + intros x v Hx. destruct (H1 x v Hx) as (d & Hd & Hin). exists d. split; [|exact Hin]. now apply (is_variable_vs _ _ _ _ _ _ Hb).
    + intros g Hg Hall'. destruct (b_into _ _ _ _ Hb _ Hg) as [(c & Hc & Hr)|[H|[E _]]]; [|apply H|fold m in E; congruence].
      fold m in Hc. rewrite <- Hcs in Hc.
      assert (Hm : forall x, mentions c x -> In x (map fst t)).
      { intros x Hx. apply Hall'. apply mentions_vars in Hx. destruct Hr as (ex & Eb & Ef). unfold c_vars in Hx. rewrite Eb in Hx.
        exact (build_vars g (OExpr ex) x Ef Hx). }
      apply (holds_sat P t (val t) c _ Hr (b_pdef _ _ _ _ Hb _ Hg)).
      * intros x Hx. apply dget_val. apply Hm. now apply mentions_vars.
      * apply (t_holds c t Hc H1 Hm). apply H2; [exact Hc|exact (b_concerns P e vs ps Hb c Hsol Hc)|exact Hm].
    + intros xs x y v Hp Hx Hy Hne. destruct (b_into _ _ _ _ Hb _ Hp) as [(c & Hc & Hr)|[H|[E _]]]; [| |fold m in E; congruence].
      * fold m in Hc. rewrite <- Hcs in Hc. exact (H3 c xs x y v Hc Hr Hx Hy Hne).
      * exfalso. exact (H (fun _ => 0) x y Hx Hy Hne eq_refl).
  - intros (H1 & H2 & H3).
    assert (Hd : forall x v, In (x, v) t -> exists d, is_variable m x d /\ In v d).
    { intros x v Hx. destruct (H1 x v Hx) as (d & Hd & Hin). exists d. split; [|exact Hin]. now apply (is_variable_vs _ _ _ _ _ _ Hb). }
    assert (Hfrom : forall c, In c cs -> exists p, In p ps /\ realizes c p).
    { intros c Hc. rewrite Hcs in Hc. exact (b_from _ _ _ _ Hb c Hc (b_some _ _ _ _ Hb Hsol c Hc)). }
    split; [exact Hd|]. split.
    + intros c Hc _ Hm. apply (t_holds c t Hc Hd Hm). destruct (Hfrom c Hc) as (p & Hp & Hr).
      apply (holds_sat P t (val t) c p Hr (b_pdef _ _ _ _ Hb p Hp)).
      * intros x Hx. apply dget_val. apply Hm. now apply mentions_vars.
      * destruct p as [g|xs].
        -- apply H2; [exact Hp|]. destruct Hr as (ex & Eb & Ef). intros x Hx. apply Hm. apply mentions_vars. unfold c_vars. rewrite Eb.
           exact (Hkeep g ex Hp Ef x Hx).
        -- intros x y Hx Hy Hne E. cbn in Hr. apply (H3 xs x y (val t x) Hp Hx Hy Hne).
           ++ apply dget_val. apply Hm. unfold mentions. now rewrite Hr.
           ++ rewrite E. apply dget_val. apply Hm. unfold mentions. now rewrite Hr.
    + intros c xs x y v Hc Eb. destruct (Hfrom c Hc) as ([g|xs'] & Hp & Hr); cbn in Hr.
      * destruct Hr as (ex & E & _). congruence.
      * rewrite Eb in Hr. injection Hr as <-. now apply (H3 xs).
Qed.

Lemma t_names : variables_of m = names_of vs.
Proof.
  unfold variables_of, m. rewrite (b_vars _ _ _ _ Hb). unfold names_of. clear. induction vs as [|[x d] l IH]; cbn; [reflexivity|]. now rewrite IH.
Qed.

Lemma t_tries : exists order, Permutation order (names_of vs) /\
  (policy_of sv no_args = ORDERED -> order = names_of vs) /\
  (ts <> [] -> visits shuffle (policy_of sv no_args) m cs order) /\
  (forall t, In t ts -> starts order t /\ tried P vs ps t) /\ NoDup ts /\
  (e_interrupt e' = None -> forall t, starts order t -> tried P vs ps t -> In t ts).
Proof.
  destruct (watched clk shuffle f e sv no_args ts ys e' r Hv Hrun) as (order & Hp & Ho & _ & _ & Hvi & _ & Ht & Hnd & _ & Hin).
  fold m in Hp, Ho, Hvi, Ht, Hin. fold cs in Hvi, Ht, Hin. rewrite t_names in Hp, Ho. exists order. split; [exact Hp|]. split; [exact Ho|]. split; [exact Hvi|].
  split; [|split; [exact Hnd|]].
  - intros t Hx. destruct (Ht t Hx) as [H1 H2]. split; [exact H1|now apply t_consistent].
  - intros Hi t H1 H2. apply Hin; auto; [exact t_none|now apply t_consistent].
Qed.

End Run.
