(** Chains of equations in CryptarithmSolver. *)
From Verif Require Import ExprFacts Cryptarithm SpecCryptarithm Dec DecFacts PyTextFacts ParseFacts SpecSafe DictFacts CryptarithmText CryptarithmWord.
From Verif Require Import Queens SpecSolve SpecPuzzle PuzzleFacts CryptarithmFacts.
Open Scope list_scope.
Open Scope Z_scope.

(** ** Parsing *)
Definition cok (ts : list tok) (l : list (pycmp * ast)) (r : list tok) : Prop :=
  (length r <= length ts)%nat /\
  forall fuel, (20 * (length ts - length r) + 1 <= fuel)%nat -> parse_cmps fuel ts = Some (l, r).

Lemma cok_stop r : stop 3 r = true -> cok r [] r.
Proof.
  intros Hs. split; [lia|]. intros fuel Hf. destruct fuel as [|f]; [lia|]. cbn [parse_cmps]. destruct r as [|t r]; [reflexivity|].
  assert (Hn : cmp_tok t = None) by (simpl in Hs; destruct t; simpl in *; try reflexivity; discriminate). now rewrite Hn.
Qed.
Lemma cok_step t c ts b r l r' : cmp_tok t = Some c -> pok 4 ts b r -> cok r l r' -> cok (t :: ts) ((c, b) :: l) r'.
Proof.
  intros Hc [Hl1 Hp1] [Hl2 Hp2]. split; [simpl; lia|]. intros fuel Hf. simpl length in Hf. destruct fuel as [|f]; [lia|]. cbn [parse_cmps].
  rewrite Hc, Hp1 by lia. now rewrite Hp2 by lia.
Qed.
Lemma pok_cmps ts a r c l r' : pok 4 ts a r -> cok r (c :: l) r' -> pok 3 ts (ACmp a (c :: l)) r'.
Proof.
  intros [Hl1 Hp1] [Hl2 Hp2]. split; [lia|]. intros fuel Hf. destruct fuel as [|f]; [lia|]. cbn [parse]. rewrite Hp1 by lia. now rewrite Hp2 by lia.
Qed.

(** ** The text of a chain *)
Definition last_words (l : list (crel * cexp)) : list (list ascii) := flat_map (fun p => words_of (snd p)) l.
Definition link_asts (l : list (crel * cexp)) : list (pycmp * ast) := map (fun p => (rel_cmp (fst p), east (snd p))) l.
Definition link_forms (l : list (crel * cexp)) : list (uop * formula) := map (fun p => (cmp_uop (rel_cmp (fst p)), eform (snd p))) l.

Lemma R_links s l y : text_links s l -> R (y ++ s) = (R y ++ R s)%string /\ Wd (y ++ s) = Wd y ++ Wd s.
Proof.
  assert (H : forall r z, R (y ++ rel_text r ++ z) = (R y ++ R (rel_text r ++ z))%string /\ Wd (y ++ rel_text r ++ z) = Wd y ++ Wd (rel_text r ++ z)).
  { intros r z. destruct (R_rel y r z) as [-> ->]. destruct (R_rel "" r z) as [E1 E2]. cbn [append] in E1, E2. rewrite E1, E2. now split. }
  intros [r z f _|r z f s' l' _ _]; apply H.
Qed.

Definition rel_first (ts : list tok) : Prop := exists r ts', ts = rel_tok r :: ts'.
Lemma rel_first_stop ts r k : (4 <= k)%nat -> rel_first ts -> stop k (ts ++ r) = true.
Proof. intros Hk (q & ts' & ->). do 4 (destruct k as [|k]; [lia|]). destruct q; reflexivity. Qed.

Lemma links_text s l : text_links s l -> exists ts, LS (R s) ts /\ rel_first ts /\ Wd s = map up (last_words l) /\ words_ok (last_words l) /\
  forall r, stop 3 r = true -> cok (ts ++ r) (link_asts l) r.
Proof.
  destruct grammar as (_ & _ & G). intros H. induction H as [r y f Hy|r y f s l Hy Hs IH].
  - destruct (G y f Hy) as (ts & (A1 & A2 & A3 & A4 & A5) & P). destruct (R_rel "" r y) as [E1 E2]. cbn [append] in E1, E2. exists (rel_tok r :: ts).
    rewrite E1, E2. split; [now apply LS_rel|]. split; [now exists r, ts|]. unfold last_words. cbn [flat_map snd app]. rewrite app_nil_r. split; [exact A4|]. split; [exact A5|].
    intros r' Hr. cbn [app link_asts map fst snd]. apply (cok_step _ _ _ _ r'); [destruct r; reflexivity| |now apply cok_stop].
    apply (pok_lift 7); [lia| |eapply stop_mono; [|exact Hr]; lia|apply hd_heads; [lia|exact A3]].
    apply P; [eapply stop_mono; [|exact Hr]; lia|apply lok_stop; eapply stop_mono; [|exact Hr]; lia].
  - destruct IH as (ts2 & B1 & B2 & B3 & B4 & B5). destruct (G y f Hy) as (ts & (A1 & A2 & A3 & A4 & A5) & P).
    destruct (R_rel "" r (y ++ s)) as [E1 E2]. cbn [append] in E1, E2. destruct (R_links s l y Hs) as [E3 E4]. rewrite E3 in E1. rewrite E4 in E2. exists (rel_tok r :: ts ++ ts2).
    rewrite E1, E2. split; [apply LS_rel; [now apply starts_app|now apply LS_app]|]. split; [now exists r, (ts ++ ts2)|].
    unfold last_words in *. cbn [flat_map snd]. split; [rewrite map_app; cbn [Wd]; change (Wd "") with (@nil (list ascii)); cbn [app]; congruence|].
    split; [intros w Hw; apply in_app_or in Hw; destruct Hw; auto|].
    intros r' Hr. cbn [app link_asts map fst snd]. rewrite <- app_assoc. apply (cok_step _ _ _ _ (ts2 ++ r')); [destruct r; reflexivity| |now apply B5].
    apply (pok_lift 7); [lia| |apply rel_first_stop; [lia|exact B2]|apply hd_heads; [lia|exact A3]].
    apply P; [apply rel_first_stop; [lia|exact B2]|apply lok_stop, rel_first_stop; [lia|exact B2]].
Qed.

Lemma links_cons s l : text_links s l -> exists p l', l = p :: l'.
Proof. intros []; eauto. Qed.

Lemma chain_text s e l : text_chain s e l ->
  (exists ts, lex (mod_source s) = Ok ts /\ parse_expr ts = Ok (ACmp (east e) (link_asts l))) /\ cry_words s = map up (chain_words e l) /\ words_ok (chain_words e l).
Proof.
  intros [x e' s' l' Hx Hs]. destruct grammar as (_ & _ & G). destruct (G x e' Hx) as (ts1 & (A1 & A2 & A3 & A4 & A5) & P1).
  destruct (links_text s' l' Hs) as (ts2 & B1 & B2 & B3 & B4 & B5). destruct (R_links s' l' x Hs) as [E1 E2].
  rewrite mod_source_render, cry_words_scan. fold (R (x ++ s')) (Wd (x ++ s')). rewrite E1, E2. unfold chain_words. split; [|split].
  - exists (ts1 ++ ts2). split.
    + assert (H : LS (R x ++ R s') (ts1 ++ ts2)) by (now apply LS_app). unfold lex. unfold LS in H. rewrite H. cbn. now rewrite app_nil_r.
    + assert (Hp : pok 0 (ts1 ++ ts2) (ACmp (east e') (link_asts l')) []).
      { apply (pok_lift 3); [lia| |reflexivity|apply hd_heads; [lia|exact A3]]. destruct (links_cons s' l' Hs) as (p & l'' & ->). cbn [link_asts map].
        apply (pok_cmps _ _ ts2).
        - apply (pok_lift 7); [lia| |rewrite <- (app_nil_r ts2); apply rel_first_stop; [lia|exact B2]|apply hd_heads; [lia|exact A3]].
          apply P1; [|apply lok_stop]; rewrite <- (app_nil_r ts2); (apply rel_first_stop; [lia|exact B2]).
        - rewrite <- (app_nil_r ts2). apply (B5 []). reflexivity. }
      unfold parse_expr. destruct Hp as [_ Hp]. rewrite Hp; [reflexivity|]. unfold parse_fuel. cbn [length]. lia.
  - now rewrite A4, B3, map_app.
  - intros w Hw. apply in_app_or in Hw. destruct Hw; auto.
Qed.

(** ** The object *)
Lemma letterless_build e : words_ok (words_of e) -> (forall x, ~ has_letter (words_of e) x) -> exists n, build (eform e) = Ok (OInt n).
Proof.
  induction e as [w|e IHe f IHf|e IHe f IHf|e IHe f IHf|e IHe|e IHe]; intros Hok Hn; cbn [eform words_of] in *;
    try (assert (He := IHe (fun w H => Hok w (in_or_app _ _ _ (or_introl H))) (fun x H => Hn x (proj2 (has_letter_app _ _ x) (or_introl H))));
         assert (Hf := IHf (fun w H => Hok w (in_or_app _ _ _ (or_intror H))) (fun x H => Hn x (proj2 (has_letter_app _ _ x) (or_intror H))));
         destruct He as (m & He), Hf as (n & Hf); cbn [build]; rewrite He, Hf; cbn; eexists; reflexivity).
  - assert (Ed : wdict (up w) = []).
    { destruct (wdict (up w)) as [|[x k] d] eqn:E; [reflexivity|]. exfalso. destruct (word_parts_ok (up w)) as (_ & _ & Hk).
      assert (Hx : In x (dkeys (wdict (up w)))) by (rewrite E; now left). apply Hk in Hx. destruct Hx as (c & Hc & Hd & Ex).
      unfold up in Hc. apply in_map_iff in Hc. destruct Hc as (d' & <- & Hin). apply (Hn x). exists w, d'. split; [now left|auto]. }
    unfold wform. rewrite Ed. cbn. eexists; reflexivity.
  - destruct (IHe Hok Hn) as (m & He). cbn [build]. rewrite He. cbn. eexists; reflexivity.
  - exact (IHe Hok Hn).
Qed.

Lemma letterless_sides q : words_ok (equation_words q) -> letterless q -> let '(Equation e _ f) := q in
  (exists n, build (eform e) = Ok (OInt n)) /\ exists n, build (eform f) = Ok (OInt n).
Proof.
  destruct q as [e r f]. unfold letterless, letter_of. cbn [equation_words]. intros Hok Hl.
  assert (Hl' : forall x, ~ has_letter (words_of e ++ words_of f) x) by (intros x Hx; apply (Hl x); now apply letter_of_has).
  split; apply letterless_build.
  - intros w Hw; apply Hok; apply in_or_app; auto.
  - intros x Hx; apply (Hl' x); apply has_letter_app; auto.
  - intros w Hw; apply Hok; apply in_or_app; auto.
  - intros x Hx; apply (Hl' x); apply has_letter_app; auto.
Qed.

Lemma letterless_not_consts q : words_ok (equation_words q) -> letterless q -> not_consts (qform q).
Proof.
  intros Hok Hl. pose proof (letterless_sides q Hok Hl) as H. destruct q as [e r f]. destruct H as [(m & He) (n & Hf)].
  intros u g h c d E Hg Hh. cbn [qform] in E. injection E as _ <- _. congruence.
Qed.

Lemma build_value e n a : build (eform e) = Ok (OInt n) -> evalue a e = n.
Proof.
  intros H. assert (E : oval (fun _ => 0) (map (fun y => (y, a y)) (fvars (eform e))) (OInt n) = Ok (evalue a e)).
  { apply (build_meaning (fun _ => 0) a _ (eform e)); [intros x Hx; now apply dget_map_fun|apply eform_meaning|exact H]. }
  cbn in E. congruence.
Qed.

(** A link that can be false is an Expression object. *)
Lemma depends_expr q n : words_ok (equation_words q) -> depends_in q -> build (qform q) <> Ok (OInt n).
Proof.
  intros Hok Hd Hb. destruct (qform_class q Hok) as (_ & _ & Hc & _). pose proof (comparison_of_ints _ _ Hc (depends_not_consts q Hok Hd) Hb) as Hi.
  destruct q as [e r f]. cbn [qform of_ints equation_words] in *.
  assert (Hno : forall e, words_ok (words_of e) -> (exists n, build (eform e) = Ok (OInt n)) -> ~ depends e).
  { intros g Hg (m & Hm) (a & a' & k & k' & H1 & H2 & Hne). apply value_evalue in H1; [|exact Hg]. apply value_evalue in H2; [|exact Hg]. apply Hne.
    rewrite H1, H2, (build_value g m a Hm), (build_value g m a' Hm). reflexivity. }
  destruct (build (eform e)) as [[m|]|] eqn:Ee; try discriminate. destruct (build (eform f)) as [[k|]|] eqn:Ef; try discriminate.
  destruct Hd as [Hd|Hd]; [apply (Hno e)|apply (Hno f)]; eauto; intros w Hw; apply Hok; apply in_or_app; auto.
Qed.

Lemma link_value q n a : words_ok (equation_words q) -> build (qform q) = Ok (OInt n) -> (n <> 0 <-> true_equation a q).
Proof.
  intros Hok H. rewrite true_holds by exact Hok. destruct (qform_meaning (fun _ => 0) a q) as (v & Hv & Hiff). rewrite <- Hiff.
  assert (E : oval (fun _ => 0) (map (fun y => (y, a y)) (fvars (qform q))) (OInt n) = Ok v).
  { apply (build_meaning (fun _ => 0) a _ (qform q)); [intros x Hx; now apply dget_map_fun|exact Hv|exact H]. }
  cbn in E. replace v with n by congruence. reflexivity.
Qed.

Lemma link_build q : words_ok (equation_words q) -> exists o, build (qform q) = Ok o.
Proof.
  intros Hok. destruct (qform_meaning (fun _ => 0) (fun _ => 0) q) as (v & Hv & _). destruct (qform_class q Hok) as (Hd & _).
  apply (build_total (fun _ => 0) (fun _ => 0) (map (fun y => (y, 0)) (fvars (qform q))) (qform q) v); auto.
  intros x Hin. exact (dget_map_fun (fun _ => 0) _ _ Hin).
Qed.

Lemma truthy_zero n : truthy n = true <-> n <> 0.
Proof. unfold truthy. rewrite negb_true_iff, Z.eqb_neq. reflexivity. Qed.

Lemma chain_imposed : forall l e q, words_ok (chain_words e l) -> imposed (links e l) q -> chain (link_forms l) (eform e) = Ok (qform q).
Proof.
  induction l as [|[r f] l IH]; intros e q Hok Hi; [inversion Hi|]. cbn [links] in Hi.
  assert (Hq : words_ok (equation_words (Equation e r f))).
  { intros w Hw. apply Hok. unfold chain_words. cbn [flat_map snd equation_words] in *. apply in_app_or in Hw. destruct Hw; [apply in_or_app; now left|].
    apply in_or_app. right. apply in_or_app. now left. }
  assert (Hok' : words_ok (chain_words f l)).
  { intros w Hw. apply Hok. unfold chain_words in *. cbn [flat_map snd]. apply in_or_app. now right. }
  destruct l as [|[r' f'] l].
  - cbn [link_forms map chain fst snd]. assert (E : q = Equation e r f); [|subst q; reflexivity]. inversion Hi; subst; auto. inversion H3.
  - specialize (IH f). set (q0 := Equation e r f) in *.
    assert (Ec : chain (link_forms ((r, f) :: (r', f') :: l)) (eform e) =
      match build (qform q0) with Err ex => Err ex | Ok (OInt n) => if truthy n then chain (link_forms ((r', f') :: l)) (eform f) else Ok (qform q0)
                                | Ok (OExpr _) => chain (link_forms ((r', f') :: l)) (eform f) end) by reflexivity.
    rewrite Ec. destruct (link_build q0 Hq) as (o & Ho). rewrite Ho. inversion Hi as [| ? ? Hl Hf|? ? ? Hs Hi']; subst.
    + pose proof (letterless_sides q0 Hq Hl) as [(m & He) (n & Hf')]. destruct o as [k|x].
      * destruct (truthy k) eqn:Ek; [|reflexivity]. exfalso. apply Hf. apply (link_value q0 k); [exact Hq|exact Ho|]. now apply truthy_zero.
      * exfalso. unfold q0 in Ho. cbn [qform build] in Ho. rewrite He, Hf' in Ho. destruct r; discriminate Ho.
    + destruct o as [k|x]; [|now apply IH]. destruct Hs as [Hd|[Hl Hs]]; [exfalso; exact (depends_expr q0 k Hq Hd Ho)|].
      assert (Hk : k <> 0) by (now apply (link_value q0 k (fun _ => 0))). apply truthy_zero in Hk. rewrite Hk. now apply IH.
Qed.

Lemma imposed_in : forall l e q, imposed (links e l) q -> forall w, In w (equation_words q) -> In w (chain_words e l).
Proof.
  induction l as [|[r f] l IH]; intros e q Hi w Hw; [inversion Hi|]. cbn [links] in Hi. unfold chain_words. cbn [flat_map snd].
  assert (H0 : In w (equation_words (Equation e r f)) -> In w (words_of e ++ words_of f ++ flat_map (fun p => words_of (snd p)) l)).
  { cbn [equation_words]. intros H. rewrite !in_app_iff in *. tauto. }
  inversion Hi as [| |? ? ? ? Hi2]; subst; auto. apply in_or_app. right. exact (IH f q Hi2 w Hw).
Qed.
Lemma imposed_known : forall qs q, imposed qs q -> depends_in q \/ letterless q.
Proof. induction 1; auto. Qed.

Lemma links_formula xs : forall l, words_ok (last_words l) -> (forall x, has_letter (last_words l) x -> In x xs) ->
  (fix go (l : list (pycmp * ast)) : res (list (uop * formula)) :=
     match l with
     | [] => Ok []
     | (c, d) :: l' => let! g := ast_formula xs d in let! gs := go l' in Ok ((cmp_uop c, g) :: gs)
     end) (link_asts l) = Ok (link_forms l).
Proof.
  induction l as [|[r f] l IH]; intros Hok Hx; [reflexivity|]. cbn [link_asts map fst snd].
  unfold last_words in *. cbn [flat_map snd] in *.
  rewrite (east_formula xs f); [|intros w Hw; apply Hok; apply in_or_app; auto|intros x H; apply Hx; apply has_letter_app; auto]. cbn [bind].
  unfold link_asts in IH. rewrite IH; [reflexivity|intros w Hw; apply Hok; apply in_or_app; auto|intros x H; apply Hx; apply has_letter_app; auto].
Qed.

Lemma eval_chain s e l q xs : text_chain s e l -> imposed (links e l) q -> (forall x, letter_in (chain_words e l) x -> In x xs) ->
  eval_source xs (mod_source s) = Ok (qform q).
Proof.
  intros Ht Hi Hx. destruct (chain_text s e l Ht) as ((ts & E1 & E2) & _ & Hok). unfold eval_source. rewrite E1. cbn [bind]. rewrite E2. cbn [bind].
  assert (Hx' : forall x, has_letter (chain_words e l) x -> In x xs) by (intros x H; apply Hx; now apply letter_of_has).
  assert (Ef : ast_formula xs (ACmp (east e) (link_asts l)) = Ok (qform q)).
  { cbn [ast_formula]. rewrite (east_formula xs e); [|intros w H; apply Hok; apply in_or_app; auto|intros x H; apply Hx'; apply has_letter_app; auto]. cbn [bind].
    rewrite links_formula; [|intros w H; apply Hok; apply in_or_app; auto|intros x H; apply Hx'; apply has_letter_app; auto]. cbn [bind]. now apply chain_imposed. }
  rewrite Ef. cbn [bind]. destruct (link_build q) as (o & ->); [|reflexivity]. intros w Hw. apply Hok. now apply (imposed_in l e q).
Qed.

Lemma chain_exact s e l q order avoid clk shuffle o : text_chain s e l -> imposed (links e l) q -> (exists x, letter_in (chain_words e l) x) ->
  shuffles order -> shuffles shuffle ->
  exactly (fun fuel => cry_run clk shuffle fuel order s avoid o) (solution_over (chain_words e l) q) (o_timeout o) (o_limit o).
Proof.
  intros Ht Hi Hl Ho Hs. destruct (chain_text s e l Ht) as (_ & Hw & Hok). assert (Hsub := imposed_in l e q Hi).
  apply over_exact; auto.
  - intros xs Hx. now apply (eval_chain s e l).
  - assert (Hq : words_ok (equation_words q)) by (intros w H; auto). destruct (imposed_known _ _ Hi); [now apply depends_not_consts|now apply letterless_not_consts].
Qed.
