(** Consequences of the reading of the generated text. *)
From Coq Require Import Lia.
From Verif Require Import Dec DecFacts PyText SpecFormula SpecSafe SpecText SpecReading ExprFacts PyTextFacts ParseFacts CompileFacts SafeFacts StrFacts ReadingFacts.
Open Scope list_scope.
Open Scope Z_scope.

(** ** When the text is Python *)
Definition is_read (o : option ast) : bool := match o with Some _ => true | None => false end.
Definition sound_piece (p : piece) : bool := is_read (atom p).
Lemma is_read_whole p : is_read (whole p) = sound_piece p.
Proof. unfold whole, sound_piece. destruct (atom p); reflexivity. Qed.
Lemma is_read_all l : match all_read l with Some _ => true | None => false end = forallb is_read l.
Proof. induction l as [|[a|] l IH]; cbn [all_read forallb is_read andb]; [reflexivity| |reflexivity]. rewrite <- IH. destruct (all_read l); reflexivity. Qed.
Lemma all_read_length l r : all_read l = Some r -> length r = length l.
Proof. revert r. induction l as [|[a|] l IH]; cbn [all_read]; intros r H; [now injection H as <-| |discriminate]. destruct (all_read l); [|discriminate]. injection H as <-. simpl. now rewrite IH. Qed.
Lemma is_read_ors l : l <> [] -> is_read (ors l) = forallb is_read l.
Proof.
  intros Hne. rewrite <- is_read_all. unfold ors. destruct (all_read l) as [r|] eqn:E; [|reflexivity].
  apply all_read_length in E. destruct r; [|reflexivity]. destruct l; [contradiction|discriminate].
Qed.
Lemma read_wholes l : forallb is_read (map whole l) = forallb sound_piece l.
Proof. induction l as [|p l IH]; [reflexivity|]. cbn [map forallb]. now rewrite is_read_whole, IH. Qed.

Lemma read_tight mk o p q : is_read (tight_join mk o p q) = sound_piece p && sound_piece q && (nots q =? 0)%nat.
Proof. unfold tight_join, sound_piece. destruct (atom p), (atom q), (nots q); reflexivity. Qed.
Definition joinable (o : binop) (q : piece) : bool := match o with OAnd | OOr => true | _ => (nots q =? 0)%nat end.
Lemma read_join o p q : o <> OOr -> is_read (join o p q) = sound_piece p && sound_piece q && joinable o q.
Proof.
  intros Ho. destruct o; cbn [join joinable]; try (apply read_tight); [|contradiction].
  rewrite <- !is_read_whole. destruct (whole p), (whole q); reflexivity.
Qed.
Lemma read_glue o l q r : o <> OOr -> l <> [] ->
  forallb is_read (glue o l (q :: r)) = forallb sound_piece l && forallb sound_piece (q :: r) && joinable o q.
Proof.
  intros Ho. induction l as [|p l IH]; intros Hne; [contradiction|]. destruct l as [|p2 l].
  - cbn [glue forallb]. rewrite read_join, read_wholes by assumption. destruct (sound_piece p), (sound_piece q), (forallb sound_piece r), (joinable o q); reflexivity.
  - change (glue o (p :: p2 :: l) (q :: r)) with (whole p :: glue o (p2 :: l) (q :: r)).
    change (forallb is_read (whole p :: glue o (p2 :: l) (q :: r))) with (is_read (whole p) && forallb is_read (glue o (p2 :: l) (q :: r))).
    rewrite IH by discriminate. rewrite is_read_whole. cbn [forallb]. now rewrite !andb_assoc.
Qed.
Lemma glue_nonempty o l r : l <> [] -> glue o l r <> [].
Proof. destruct l as [|p [|p2 l]]; [contradiction| |]; intros _; destruct r; discriminate. Qed.
Lemma read_printed k c l : forallb is_read (printed k c l) = forallb is_read l.
Proof. unfold printed. destruct (c =? neutral k); reflexivity. Qed.
Lemma sound_call_list f l : sound_piece (call_list f l) = forallb is_read l.
Proof. rewrite <- is_read_all. unfold sound_piece, call_list. cbn [atom]. destruct (all_read l); reflexivity. Qed.
Lemma sound_call f o : sound_piece (call f o) = is_read o.
Proof. destruct o; reflexivity. Qed.
Lemma forallb_same {A B} (f : A -> bool) (g : B -> bool) (h : A -> B) l : Forall (fun a => f a = g (h a)) l -> forallb f l = forallb g (map h l).
Proof. induction 1 as [|a l H Hl IH]; [reflexivity|]. cbn [forallb map]. now rewrite H, IH. Qed.

Lemma str_sound e : not_free e = sound_piece (str_reading e).
Proof.
  induction e as [z|y|p y|e IH|e IH|e IH|o l r IHl IHr|es c IH|es c IH] using expr_ind'; cbn [not_free str_reading]; try reflexivity.
  - rewrite IH, <- is_read_whole. reflexivity.
  - now rewrite sound_call, is_read_whole.
  - unfold sound_piece at 1. cbn [atom]. rewrite read_tight, str_nots, IHl, IHr. now rewrite andb_true_r.
  - rewrite sound_call_list, read_printed. rewrite (forallb_same not_free is_read (fun e => whole (str_reading e))); [reflexivity|].
    eapply Forall_impl; [|exact IH]. intros e He. cbn beta. now rewrite is_read_whole.
  - rewrite sound_call_list, read_printed. rewrite (forallb_same not_free is_read (fun e => whole (str_reading e))); [reflexivity|].
    eapply Forall_impl; [|exact IH]. intros e He. cbn beta. now rewrite is_read_whole.
Qed.
Lemma pieces_nonempty ps e : exists p l, py_pieces ps e = p :: l /\ starts_with_not e = negb (nots p =? 0)%nat.
Proof.
  induction e as [z|y|p y|e IH|e IH|e IH|o l r IHl IHr|es c IH|es c IH] using expr_ind'; try (cbn [py_pieces]; eexists _, _; split; reflexivity).
  - destruct IH as (p & l & E & _). cbn [py_pieces]. rewrite E. eexists _, _. split; reflexivity.
  - destruct o; try (cbn [py_pieces]; eexists _, _; split; reflexivity).
    destruct IHl as (p & l' & E & S). cbn [py_pieces starts_with_not]. rewrite E. cbn [app]. eexists _, _. split; [reflexivity|exact S].
Qed.
Lemma compiles_sound ps e : compiles e = forallb sound_piece (py_pieces ps e).
Proof.
  induction e as [z|y|p y|e IH|e IH|e IH|o l r IHl IHr|es c IH|es c IH] using expr_ind'; cbn [compiles]; try reflexivity.
  - cbn [py_pieces forallb]. rewrite str_sound, <- is_read_whole. now rewrite andb_true_r.
  - cbn [py_pieces forallb]. now rewrite sound_call, is_read_whole, str_sound, andb_true_r.
  - rewrite IH. cbn [py_pieces]. destruct (py_pieces ps e); reflexivity.
  - destruct (binop_dec o OOr) as [->|No].
    + cbn [py_pieces]. rewrite IHl, IHr, forallb_app. now rewrite andb_true_r.
    + replace (py_pieces ps (Bin o l r)) with [Piece 0 false (ors (glue o (py_pieces ps l) (py_pieces ps r)))] by (destruct o; try reflexivity; contradiction).
      cbn [forallb]. unfold sound_piece at 1. cbn [atom]. rewrite andb_true_r.
      destruct (pieces_nonempty ps l) as (pl & ll & El & _). destruct (pieces_nonempty ps r) as (pr & lr & Er & Sr).
      rewrite is_read_ors by (apply glue_nonempty; rewrite El; discriminate).
      rewrite IHl, IHr, Er. rewrite read_glue; [|assumption|rewrite El; discriminate].
      f_equal. unfold joinable. rewrite Sr. destruct o; try reflexivity; now rewrite negb_involutive.
  - cbn [py_pieces forallb]. rewrite sound_call_list, read_printed, andb_true_r. apply forallb_same.
    eapply Forall_impl; [|exact IH]. intros e He. cbn beta. rewrite is_read_ors, read_wholes; [exact He|].
    destruct (pieces_nonempty ps e) as (p & l & E & _). rewrite E. discriminate.
  - cbn [py_pieces forallb]. rewrite sound_call_list, read_printed, andb_true_r. apply forallb_same.
    eapply Forall_impl; [|exact IH]. intros e He. cbn beta. rewrite is_read_ors, read_wholes; [exact He|].
    destruct (pieces_nonempty ps e) as (p & l & E & _). rewrite E. discriminate.
Qed.
Lemma reading_compiles ps e : is_read (reading ps e) = compiles e.
Proof.
  unfold reading. rewrite is_read_ors, read_wholes; [symmetry; apply compiles_sound|].
  destruct (pieces_nonempty ps e) as (p & l & E & _). rewrite E. discriminate.
Qed.
Theorem compiles_iff ps e : readable e = true ->
  ((exists args body, as_function ps e = Compiled args body) <-> compiles e = true).
Proof.
  intros H. rewrite (as_function_reading ps e H), <- (reading_compiles ps e). destruct (reading ps e) as [a|]; cbn [is_read].
  - split; [reflexivity|]. intros _. now exists (vars e), a.
  - split; [|discriminate]. intros (args & body & E). discriminate.
Qed.
Theorem fallback_iff ps e : readable e = true -> (as_function ps e = Fallback <-> compiles e = false).
Proof.
  intros H. rewrite (as_function_reading ps e H), <- (reading_compiles ps e). destruct (reading ps e) as [a|]; cbn [is_read]; split; congruence.
Qed.
Theorem call_reading ps s e : readable e = true ->
  call_code (as_function ps e) s =
  match reading ps e with
  | Some a => if forallb (fun x => dmem s x) (vars e) then aeval (filter (fun b => memb (fst b) (vars e)) s) a else Err TypeError
  | None => Err TypeError
  end.
Proof. intros H. rewrite (as_function_reading ps e H). destruct (reading ps e); reflexivity. Qed.

(** ** Formulas *)
Definition clean (e : expr) : Prop := readable e = true /\ not_free e = true /\ normal e = true.
Definition clean_elem (k : acckind) (e : expr) : Prop := clean e /\ elem k e = true.
Lemma readable_acc k es c : readable (mk_acc k es c) = three_values k es c && forallb readable es.
Proof. destruct k; reflexivity. Qed.
Lemma not_free_acc k es c : not_free (mk_acc k es c) = forallb not_free es.
Proof. destruct k; reflexivity. Qed.
Lemma clean_elems k es c : clean (mk_acc k es c) -> Forall (clean_elem k) es.
Proof.
  intros (P & F & N). rewrite readable_acc in P. apply andb_true_iff in P. destruct P as [_ P].
  rewrite not_free_acc in F. rewrite normal_acc in N. rewrite forallb_forall in *. rewrite Forall_forall. intros e He.
  specialize (N e He). apply andb_true_iff in N. destruct N. repeat split; auto.
Qed.
Lemma clean_elem_of k e : clean e -> (forall z, e <> Const z) -> as_acc k e = None -> clean_elem k e.
Proof. intros F Hc Ha. split; [exact F|]. destruct e; destruct k; try reflexivity; try discriminate Ha; now destruct (Hc z). Qed.
Lemma clean_elem_ok k e : clean_elem k e -> SafeFacts.elem_ok k e.
Proof.
  intros [(P & _) E]. assert (He : as_empty_acc e = None).
  { destruct (as_empty_acc e) as [c|] eqn:Ee; [|reflexivity]. apply as_empty_acc_inv in Ee. destruct Ee as (k' & ->). rewrite readable_acc in P. apply andb_true_iff in P. destruct P as [P _].
    exfalso. unfold three_values in P. destruct (c =? neutral k'); discriminate. }
  split; [|split; [|assumption]]; destruct e; destruct k; try discriminate; reflexivity.
Qed.
Lemma clean_const z : clean (Const z).
Proof. now repeat split. Qed.
Lemma clean_bin o l r : clean l -> clean r -> clean (Bin o l r).
Proof. intros (P & F & N) (P' & F' & N'). repeat split; cbn [readable not_free normal]; now rewrite ?P, ?P', ?F, ?F', ?N, ?N'. Qed.
Lemma clean_bin_inv o l r : clean (Bin o l r) -> clean l /\ clean r.
Proof. intros (P & F & N). cbn [readable not_free normal] in *. apply andb_true_iff in P, F, N. destruct P, F, N. now repeat split. Qed.
Lemma clean_acc_init k es c : Forall (clean_elem k) es -> three_values k es c = true -> clean (acc_init k es c).
Proof.
  intros H H3. unfold acc_init. rewrite acc_loop_copy by (eapply Forall_impl; [|exact H]; intros e; apply clean_elem_ok).
  cbn [app]. rewrite Forall_forall in H. split; [|split].
  - rewrite readable_acc, H3. apply forallb_forall. intros e He. apply (H e He).
  - rewrite not_free_acc. apply forallb_forall. intros e He. apply (H e He).
  - rewrite normal_acc. apply forallb_forall. intros e He. destruct (H e He) as [(_ & _ & N) E]. now rewrite E, N.
Qed.
Lemma clean_make_acc k l r : clean (coerce l) -> clean (coerce r) -> clean (make_acc k l r).
Proof.
  intros Hl Hr. unfold make_acc.
  pose proof (macc_loop_Forall k clean (clean_elem k) (clean_elem_of k) (clean_elems k) (expand k l ++ expand k r) (neutral k) []) as H.
  destruct (macc_loop k (expand k l ++ expand k r) (neutral k) []) as [const elist]. cbn [snd] in H.
  specialize (H ltac:(apply Forall_app; split; (apply expand_Forall; [intros a b; apply clean_bin_inv|assumption])) (Forall_nil _)).
  destruct elist as [|e1 [|e2 [|e3 es]]].
  - apply clean_const.
  - inversion H as [|? ? [H1 _] _]; subst. destruct (const =? neutral k); [assumption|]. apply clean_bin; [apply clean_const|assumption].
  - inversion H as [|? ? [H1 _] H']; subst. inversion H' as [|? ? [H2 _] _]; subst.
    destruct (const =? neutral k) eqn:E; [now apply clean_bin|]. apply clean_acc_init; [assumption|]. unfold three_values. now rewrite E.
  - destruct (const =? neutral k) eqn:E; apply clean_acc_init; try assumption; unfold three_values; apply Nat.leb_le; cbn [length]; lia.
Qed.
Lemma build_clean f : forall o, f_readable f = true -> build f = Ok o -> clean (coerce o).
Proof.
  assert (Hop : forall u a b o, clean (coerce a) -> clean (coerce b) -> py_op u a b = Ok o -> clean (coerce o)).
  { apply closed_py_op; [apply clean_const|intros e (P & F & N); now repeat split|apply clean_bin|apply clean_make_acc]. }
  induction f as [n|x|p x|g IH|g IH|u g h IHg IHh|gs IH] using formula_ind'; intros o Hf H.
  - injection H as <-. apply clean_const.
  - injection H as <-. split; [exact Hf|now split].
  - injection H as <-. split; [exact Hf|now split].
  - cbn [build f_readable] in *. destruct (build g) as [a|]; [|discriminate]. injection H as <-. specialize (IH a Hf eq_refl). destruct a; [apply clean_const|exact IH].
  - cbn [build f_readable] in *. destruct (build g) as [a|]; [|discriminate]. injection H as <-. specialize (IH a Hf eq_refl). destruct a; [apply clean_const|exact IH].
  - cbn [build f_readable] in *. apply andb_true_iff in Hf. destruct Hf as [Hg Hh]. destruct (build g) as [a|]; [|discriminate]. destruct (build h) as [b|]; [|discriminate]. cbn [bind] in H.
    eapply Hop; [| |exact H]; auto.
  - cbn [build f_readable] in *.
    assert (Hacc : clean (coerce (OInt 0))) by apply clean_const. revert Hacc H. generalize (OInt 0) as acc.
    induction gs as [|g gs IHgs]; intros acc Hacc H; [injection H as <-; assumption|].
    inversion IH as [|? ? IHg IH']; subst. cbn [forallb] in Hf. apply andb_true_iff in Hf. destruct Hf as [Hg Hf'].
    destruct (build g) as [a|] eqn:Eg; [|discriminate]. cbn [bind] in H.
    destruct (py_op UAdd acc a) as [acc'|] eqn:E; [|discriminate]. cbn [bind] in H.
    eapply IHgs; [assumption|assumption| |exact H]. eapply Hop; [exact Hacc|exact (IHg a Hg eq_refl)|exact E].
Qed.
Lemma not_free_compiles e : not_free e = true -> compiles e = true.
Proof.
  assert (Hs : forall e, not_free e = true -> starts_with_not e = false).
  { induction e0; cbn [not_free starts_with_not]; intros H; try reflexivity; try discriminate. apply andb_true_iff in H. destruct H as [H _]. destruct o; auto. }
  induction e as [z|y|p y|e IH|e IH|e IH|o l r IHl IHr|es c IH|es c IH] using expr_ind'; cbn [not_free compiles]; intros H; try assumption; try discriminate; try reflexivity.
  - apply andb_true_iff in H. destruct H as [Hl Hr]. rewrite (IHl Hl), (IHr Hr), (Hs r Hr). destruct o; reflexivity.
  - rewrite forallb_forall in *. rewrite Forall_forall in IH. auto.
  - rewrite forallb_forall in *. rewrite Forall_forall in IH. auto.
Qed.
(** A formula written with operators always compiles. *)
Theorem formula_compiles ps f e : f_readable f = true -> build f = Ok (OExpr e) -> exists body, as_function ps e = Compiled (vars e) body.
Proof.
  intros Hf Hb. destruct (build_clean f _ Hf Hb) as (R & F & _). cbn [coerce] in *.
  pose proof (reading_compiles ps e) as Hc. rewrite (not_free_compiles e F) in Hc.
  rewrite (as_function_reading ps e R). destruct (reading ps e) as [a|]; [|discriminate]. now exists a.
Qed.

(** ** Misreadings *)
Lemma dedup_acc_app l1 l2 : forall seen, dedup_acc seen (l1 ++ l2) = dedup_acc (dedup_acc seen l1) l2.
Proof. induction l1 as [|x l1 IH]; intros seen; cbn [app dedup_acc]; [reflexivity|]. destruct (memb x seen); apply IH. Qed.
Lemma dedup_acc_last l x seen : dedup_acc seen (l ++ [x]) = if memb x (dedup_acc seen l) then dedup_acc seen l else dedup_acc seen l ++ [x].
Proof. rewrite dedup_acc_app. reflexivity. Qed.
Lemma dedup_acc_dedup l : forall seen, dedup_acc seen (dedup l) = dedup_acc seen l.
Proof.
  induction l as [|x l IH] using rev_ind; intros seen; [reflexivity|].
  unfold dedup. rewrite !dedup_acc_last. fold (dedup l). destruct (memb x (dedup l)) eqn:E.
  - rewrite IH. assert (H : memb x (dedup_acc seen l) = true).
    { apply memb_In. apply memb_In in E. rewrite dedup_In in E. clear IH. revert seen. induction l as [|y l IH']; intros seen; [contradiction|]. cbn [dedup_acc].
      assert (Hm : forall l s, In x s -> In x (dedup_acc s l)).
      { clear. intros l. induction l as [|y l IH]; intros s Hs; [exact Hs|]. cbn [dedup_acc]. destruct (memb y s); apply IH; [assumption|]. apply in_or_app. now left. }
      destruct E as [->|E].
      - destruct (memb x seen) eqn:Es; [apply Hm; now apply memb_In|apply Hm, in_or_app; right; now left].
      - destruct (memb y seen); now apply IH'. }
    now rewrite H.
  - rewrite dedup_acc_last, IH. reflexivity.
Qed.
Lemma dedup_assoc a b c : dedup (dedup (a ++ b) ++ c) = dedup (a ++ dedup (b ++ c)).
Proof.
  unfold dedup at 1 3. rewrite !dedup_acc_app. rewrite !dedup_acc_dedup. fold (dedup (dedup (a ++ b))).
  rewrite <- !dedup_acc_app. now rewrite <- app_assoc.
Qed.

Lemma single ps e : disjunction e = false -> exists p, py_pieces ps e = [p].
Proof.
  induction e as [z|y|p y|e IH|e IH|e IH|o l r IHl IHr|es c IH|es c IH] using expr_ind'; cbn [disjunction]; intros H; try (eexists; reflexivity).
  - destruct (IH H) as (p & E). cbn [py_pieces]. rewrite E. now eexists.
  - destruct o; try discriminate H; eexists; reflexivity.
Qed.
Lemma bin_pieces ps o l r : o <> OOr -> py_pieces ps (Bin o l r) = [Piece 0 false (ors (glue o (py_pieces ps l) (py_pieces ps r)))].
Proof. intros H. destruct o; try reflexivity. contradiction. Qed.
Lemma or_pieces ps l r : py_pieces ps (Bin OOr l r) = py_pieces ps l ++ py_pieces ps r.
Proof. reflexivity. Qed.
Lemma not_pieces ps e p l : py_pieces ps e = p :: l -> py_pieces ps (Not e) = Piece (S (nots p)) (minus p) (atom p) :: l.
Proof. intros H. cbn [py_pieces]. now rewrite H. Qed.
Lemma ors_one o : ors [o] = o.
Proof. destruct o; reflexivity. Qed.
Lemma whole_plain o : whole (Piece 0 false o) = o.
Proof. destruct o; reflexivity. Qed.
Lemma glue_app o l p q r : l <> [] -> glue o (l ++ [p]) (q :: r) = map whole l ++ join o p q :: map whole r.
Proof.
  induction l as [|x l IH]; intros Hne; [contradiction|]. destruct l as [|y l]; [reflexivity|].
  cbn [app] in *. change (glue o (x :: y :: l ++ [p]) (q :: r)) with (whole x :: glue o (y :: l ++ [p]) (q :: r)). rewrite IH by discriminate. reflexivity.
Qed.
Lemma reading_or_left ps o a b c : o <> OOr -> disjunction b = false -> disjunction c = false ->
  reading ps (Bin o (Bin OOr a b) c) = reading ps (Bin OOr a (Bin o b c)).
Proof.
  intros Ho Hb Hc. unfold reading. rewrite !or_pieces, !(bin_pieces ps o), !or_pieces by assumption.
  destruct (single ps b Hb) as (pb & ->). destruct (single ps c Hc) as (pc & ->).
  destruct (pieces_nonempty ps a) as (pa & la & Ea & _).
  rewrite glue_app by (rewrite Ea; discriminate). cbn [map]. rewrite whole_plain, ors_one, map_app. cbn [map glue]. now rewrite whole_plain, ors_one.
Qed.
Lemma reading_or_right ps o a b c : o <> OOr -> disjunction a = false -> disjunction b = false ->
  reading ps (Bin o a (Bin OOr b c)) = reading ps (Bin OOr (Bin o a b) c).
Proof.
  intros Ho Ha Hb. unfold reading. rewrite !or_pieces, !(bin_pieces ps o), !or_pieces by assumption.
  destruct (single ps a Ha) as (pa & ->). destruct (single ps b Hb) as (pb & ->).
  cbn [map app glue]. now rewrite !whole_plain, ors_one, ors_one.
Qed.
Lemma reading_not_or ps a b : reading ps (Not (Bin OOr a b)) = reading ps (Bin OOr (Not a) b).
Proof.
  unfold reading. cbn [py_pieces]. destruct (pieces_nonempty ps a) as (pa & la & Ea & _). rewrite Ea. reflexivity.
Qed.
Lemma reading_not_tight ps o a b : tight_op o = true -> disjunction a = false -> disjunction b = false ->
  reading ps (Bin o (Not a) b) = reading ps (Not (Bin o a b)).
Proof.
  intros Ho Ha Hb. assert (No : o <> OOr) by (intros ->; discriminate). unfold reading.
  destruct (single ps a Ha) as (pa & Ea). destruct (single ps b Hb) as (pb & Eb).
  rewrite (not_pieces ps (Bin o a b) _ _ (bin_pieces ps o a b No)), (bin_pieces ps o) by assumption. rewrite (not_pieces ps a _ _ Ea), Ea, Eb.
  cbn [map glue nots minus atom]. rewrite whole_plain, !ors_one.
  assert (J : forall p q, join o p q = tight_join py_symbol o p q) by (intros p q; destruct o; try reflexivity; discriminate).
  rewrite !J. unfold tight_join, whole. cbn [nots minus atom noted signed].
  destruct (atom pa), (atom pb), (nots pb); reflexivity.
Qed.

Lemma same_function ps e e' : readable e = true -> readable e' = true -> vars e = vars e' -> reading ps e = reading ps e' ->
  as_function ps e = as_function ps e'.
Proof. intros H H' Hv Hr. rewrite (as_function_reading ps e H), (as_function_reading ps e' H'), Hv, Hr. reflexivity. Qed.
Theorem or_left ps o a b c : o <> OOr -> readable a = true -> readable b = true -> readable c = true -> disjunction b = false -> disjunction c = false ->
  as_function ps (Bin o (Bin OOr a b) c) = as_function ps (Bin OOr a (Bin o b c)).
Proof.
  intros Ho Ra Rb Rc Hb Hc. apply same_function; [cbn [readable]; now rewrite Ra, Rb, Rc|cbn [readable]; now rewrite Ra, Rb, Rc| |now apply reading_or_left].
  cbn [vars]. apply dedup_assoc.
Qed.
Theorem or_right ps o a b c : o <> OOr -> readable a = true -> readable b = true -> readable c = true -> disjunction a = false -> disjunction b = false ->
  as_function ps (Bin o a (Bin OOr b c)) = as_function ps (Bin OOr (Bin o a b) c).
Proof.
  intros Ho Ra Rb Rc Ha Hb. apply same_function; [cbn [readable]; now rewrite Ra, Rb, Rc|cbn [readable]; now rewrite Ra, Rb, Rc| |now apply reading_or_right].
  cbn [vars]. symmetry. apply dedup_assoc.
Qed.
Lemma dedup_idem l : dedup (dedup l) = dedup l.
Proof. unfold dedup at 1 3. now rewrite dedup_acc_dedup. Qed.
Lemma dedup_left a b : dedup (dedup a ++ b) = dedup (a ++ b).
Proof. unfold dedup at 1 3. rewrite !dedup_acc_app. now rewrite dedup_acc_dedup. Qed.
Theorem not_or ps a b : readable a = true -> readable b = true ->
  as_function ps (Not (Bin OOr a b)) = as_function ps (Bin OOr (Not a) b).
Proof.
  intros Ra Rb. apply same_function; [cbn [readable]; now rewrite Ra, Rb|cbn [readable]; now rewrite Ra, Rb| |now apply reading_not_or].
  cbn [vars]. now rewrite dedup_idem, dedup_left.
Qed.
Theorem not_tight ps o a b : tight_op o = true -> readable a = true -> readable b = true -> disjunction a = false -> disjunction b = false ->
  as_function ps (Bin o (Not a) b) = as_function ps (Not (Bin o a b)).
Proof.
  intros Ho Ra Rb Ha Hb. apply same_function; [cbn [readable]; now rewrite Ra, Rb|cbn [readable]; now rewrite Ra, Rb| |now apply reading_not_tight].
  cbn [vars]. now rewrite dedup_idem, dedup_left.
Qed.
Theorem negative_base ps x n : name_ok x = true ->
  as_function ps (Bin OPow (Neg (Var x)) (Const n)) = as_function ps (Neg (Bin OPow (Var x) (Const n))).
Proof.
  intros H. apply same_function; [cbn [readable]; now rewrite H|cbn [readable]; now rewrite H| |].
  - cbn [vars app]. unfold dedup. reflexivity.
  - unfold reading. cbn [py_pieces str_reading map]. rewrite !ors_one. reflexivity.
Qed.
