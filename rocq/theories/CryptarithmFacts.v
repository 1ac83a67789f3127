(** CryptarithmSolver: its texts mean what they say, and its solutions are exactly those of
    the equation. *)
From Verif Require Import ExprFacts Cryptarithm SpecCryptarithm Dec DecFacts PyTextFacts ParseFacts SpecSafe DictFacts CryptarithmText CryptarithmWord.
From Verif Require Import Queens SpecSolve SpecPuzzle PuzzleFacts PuzzleUserFacts NameFacts.
Open Scope list_scope.
Open Scope Z_scope.

Definition R (x : string) : string := string_of_list_ascii (render [] (upper x)).
Definition Wd (x : string) : list (list ascii) := scan [] (upper x).

Lemma sol_app l1 l2 : string_of_list_ascii (l1 ++ l2) = (string_of_list_ascii l1 ++ string_of_list_ascii l2)%string.
Proof. induction l1; cbn; congruence. Qed.
Lemma los_app x y : list_ascii_of_string (x ++ y) = list_ascii_of_string x ++ list_ascii_of_string y.
Proof. induction x; cbn; congruence. Qed.
Lemma upper_app x y : upper (x ++ y) = upper x ++ upper y.
Proof. unfold upper. rewrite los_app. apply map_app. Qed.

Lemma R_cut x c y : word_char (upper_char c) = false -> upper_char c = c -> R (x ++ String c y) = (R x ++ String c (R y))%string.
Proof. intros H1 H2. unfold R. rewrite upper_app. cbn [upper list_ascii_of_string map]. rewrite H2 in *. rewrite render_cut by exact H1. now rewrite sol_app. Qed.
Lemma W_cut x c y : word_char (upper_char c) = false -> upper_char c = c -> Wd (x ++ String c y) = Wd x ++ Wd y.
Proof. intros H1 H2. unfold Wd. rewrite upper_app. cbn [upper list_ascii_of_string map]. rewrite H2 in *. now rewrite scan_cut by exact H1. Qed.
Lemma R_first c y : word_char (upper_char c) = false -> upper_char c = c -> R (String c y) = String c (R y).
Proof. exact (R_cut "" c y). Qed.
Lemma W_first c y : word_char (upper_char c) = false -> upper_char c = c -> Wd (String c y) = Wd y.
Proof. exact (W_cut "" c y). Qed.

Lemma blank_cons c s : blank (String c s) -> c = " "%char /\ blank s.
Proof. intros H. split; [apply H; now left|]. intros d Hd. apply H. now right. Qed.

Lemma R_blank s y : blank s -> R (s ++ y) = (s ++ R y)%string /\ Wd (s ++ y) = Wd y.
Proof.
  induction s as [|c s IH]; intros H; [now split|]. apply blank_cons in H. destruct H as [-> H]. destruct (IH H) as [I1 I2].
  change ((String " " s ++ y)%string) with (String " " (s ++ y)). rewrite R_first, W_first, I1, I2 by reflexivity. now split.
Qed.
Lemma R_blank_end x s : blank s -> R (x ++ s) = (R x ++ s)%string /\ Wd (x ++ s) = Wd x.
Proof.
  destruct s as [|c s]; intros H.
  - assert (E : forall z, (z ++ "")%string = z) by (induction z; cbn; congruence). now rewrite !E.
  - apply blank_cons in H. destruct H as [-> H]. rewrite R_cut, W_cut by reflexivity. destruct (R_blank s "" H) as [E1 E2].
    assert (E : forall z, (z ++ "")%string = z) by (induction z; cbn; congruence). rewrite E in E1, E2. rewrite E1, E2. cbn [R Wd upper]. rewrite E.
    split; [reflexivity|apply app_nil_r].
Qed.

Definition up (w : list ascii) : list ascii := map upper_char w.

Lemma R_word w : is_word w -> R (string_of_list_ascii w) = word_expr (up w) /\ Wd (string_of_list_ascii w) = [up w].
Proof.
  intros [Hne Hw]. unfold R, Wd, upper. rewrite list_ascii_of_string_of_list_ascii. fold (up w).
  assert (Hc : forall c, In c (up w) -> word_char c = true).
  { intros c Hc. unfold up in Hc. apply in_map_iff in Hc. destruct Hc as (d & <- & Hd). apply word_upper. auto. }
  rewrite render_word, scan_word by exact Hc. cbn [app]. destruct w as [|c w]; [congruence|]. cbn [up map flush_word one_word].
  now rewrite string_of_list_ascii_of_string.
Qed.

Lemma LS_blank s : blank s -> LS s [].
Proof.
  induction s as [|c s IH]; intros H; [reflexivity|]. apply blank_cons in H. destruct H as [-> H]. exact (LS_app " " [] s [] eq_refl (IH H)).
Qed.

(** ** Pieces of text *)
Definition starts (p : string) : Prop := exists c p', p = String c p' /\ In c ["("; " "; "-"; "+"]%char.

Lemma starts_app p q : starts p -> starts (p ++ q).
Proof. intros (c & p' & -> & H). exists c, (p' ++ q)%string. now split. Qed.

Lemma LS_op o t p ts : (forall c, In c ["("; " "; "-"; "+"]%char -> two_char o c = None) -> flush (LOp o) = Ok [t] -> lex_start o = Ok ([], LOp o) ->
  starts p -> LS p ts -> LS (String o p) (t :: ts).
Proof.
  intros H1 H3 H4 (c & p' & -> & Hc) H. unfold LS in *. cbn [lex_run lex_step] in *. rewrite H4. cbn [bind fst snd lex_run].
  unfold lex_step at 1. rewrite (H1 c Hc). unfold lex_flush_start. rewrite H3. cbn [bind].
  assert (Hf : flush (LOp o) = Ok [t]) by exact H3. clear H1.
  destruct (lex_start c) as [[ts1 st1]|]; [|discriminate]. cbn [bind fst snd] in *. destruct (lex_run st1 p') as [[ts' st]|]; [|discriminate].
  cbn in H |- *. injection H as <- <-. reflexivity.
Qed.

(** ** Syntax trees and formulas *)
Fixpoint east (e : cexp) : ast :=
  match e with
  | EWord w => wast (up w)
  | EAdd e f => ABin PAdd (east e) (east f)
  | ESub e f => ABin PSub (east e) (east f)
  | EMul e f => ABin PMul (east e) (east f)
  | ENeg e => ANeg (east e)
  | EPos e => APos (east e)
  end.
Fixpoint eform (e : cexp) : formula :=
  match e with
  | EWord w => wform (up w)
  | EAdd e f => FBin UAdd (eform e) (eform f)
  | ESub e f => FBin USub (eform e) (eform f)
  | EMul e f => FBin UMul (eform e) (eform f)
  | ENeg e => FNeg (eform e)
  | EPos e => eform e
  end.
Fixpoint evalue (a : assignment) (e : cexp) : Z :=
  match e with
  | EWord w => V a (up w)
  | EAdd e f => evalue a e + evalue a f
  | ESub e f => evalue a e - evalue a f
  | EMul e f => evalue a e * evalue a f
  | ENeg e => - evalue a e
  | EPos e => evalue a e
  end.
Definition words_ok (ws : list (list ascii)) : Prop := forall w, In w ws -> is_word w.

Definition heads (ts : list tok) : Prop := exists t ts', ts = t :: ts' /\ In t [TLP; TMinus; TPlus].
Definition piece (x : string) (e : cexp) (ts : list tok) : Prop :=
  starts (R x) /\ LS (R x) ts /\ heads ts /\ Wd x = map up (words_of e) /\ words_ok (words_of e).

Definition gfactor x e := exists ts, piece x e ts /\ forall r, stop 9 r = true -> pok 9 (ts ++ r) (east e) r.
Definition gproduct x e := exists ts, piece x e ts /\ forall r b r', stop 9 r = true -> lok 8 (east e) r b r' -> pok 8 (ts ++ r) b r'.
Definition gsum x e := exists ts, piece x e ts /\ forall r b r', stop 8 r = true -> lok 7 (east e) r b r' -> pok 7 (ts ++ r) b r'.

Lemma hd_heads ts r j k : (k <= 9)%nat -> heads ts -> hd_ok j k (ts ++ r).
Proof. intros Hk (t & ts' & -> & [<-|[<-|[<-|[]]]]); (split; [intros _; discriminate|lia]). Qed.
Lemma hd_LP ts r j k : (exists ts', ts = TLP :: ts') -> hd_ok j k (ts ++ r).
Proof. intros (ts' & ->). split; [intros _; discriminate|reflexivity]. Qed.
Lemma heads_app ts ts' : heads ts -> heads (ts ++ ts').
Proof. intros (t & u & -> & H). exists t, (u ++ ts'). now split. Qed.

Lemma piece_op (o : ascii) t x y e f g ts1 ts2 : word_char o = false -> upper_char o = o -> words_of g = words_of e ++ words_of f ->
  (forall p ts, starts p -> LS p ts -> LS (String o p) (t :: ts)) -> piece x e ts1 -> piece y f ts2 -> piece (x ++ String o y) g (ts1 ++ t :: ts2).
Proof.
  intros Hw Hu Hg Hop (A1 & A2 & A3 & A4 & A5) (B1 & B2 & B3 & B4 & B5). unfold piece. rewrite R_cut, W_cut, Hg by (rewrite ?Hu; auto).
  split; [now apply starts_app|]. split; [apply LS_app; [exact A2|now apply Hop]|]. split; [now apply heads_app|].
  split; [now rewrite A4, B4, map_app|]. intros w Hin. apply in_app_or in Hin. destruct Hin; auto.
Qed.

Scheme tf_ind := Induction for text_factor Sort Prop
  with tp_ind := Induction for text_product Sort Prop
  with ts_ind := Induction for text_sum Sort Prop.
Combined Scheme text_mutind from tf_ind, tp_ind, ts_ind.

Lemma grammar :
  (forall x e, text_factor x e -> gfactor x e) /\ (forall x e, text_product x e -> gproduct x e) /\ (forall x e, text_sum x e -> gsum x e).
Proof.
  apply (text_mutind (fun x e _ => gfactor x e) (fun x e _ => gproduct x e) (fun x e _ => gsum x e)).
  - (* word *)
    intros s w t Hs Hw Ht. exists (wtoks (up w)). destruct (R_word w Hw) as [E1 E2].
    destruct (R_blank s (string_of_list_ascii w ++ t) Hs) as [E3 E4]. destruct (R_blank_end (string_of_list_ascii w) t Ht) as [E5 E6].
    assert (HL : LS (word_expr (up w)) (wtoks (up w))).
    { apply word_LS. intros c Hc. unfold up in Hc. apply in_map_iff in Hc. destruct Hc as (d & <- & Hd). apply word_char_spec, word_upper. now apply Hw. }
    assert (HS : starts (word_expr (up w))) by (rewrite word_expr_eq; eexists _, _; split; [reflexivity|now left]).
    split; [unfold piece; rewrite E3, E4, E5, E6, E1, E2; split; [|split; [|split; [|split]]]|intros r Hr; apply (pok_lift 11); [lia|apply pok_word|exact Hr|apply hd_LP; eexists; reflexivity]].
    + destruct s as [|c s]; [exact (starts_app _ t HS)|]. apply blank_cons in Hs. destruct Hs as [-> _]. eexists _, _. split; [reflexivity|right; now left].
    + change (wtoks (up w)) with ([] ++ wtoks (up w)). apply LS_app; [now apply LS_blank|]. rewrite <- (app_nil_r (wtoks (up w))). apply LS_app; [exact HL|now apply LS_blank].
    + eexists _, _. split; [reflexivity|now left].
    + reflexivity.
    + intros w' [<-|[]]. exact Hw.
  - (* parenthesised *)
    intros s x e t Hs _ (ts & (A1 & A2 & A3 & A4 & A5) & Hp) Ht. exists (TLP :: ts ++ [TRP]).
    destruct (R_blank s ("(" ++ x ++ ")" ++ t) Hs) as [E3 E4].
    assert (E5 : R ("(" ++ x ++ ")" ++ t) = ("(" ++ R x ++ ")" ++ t)%string /\ Wd ("(" ++ x ++ ")" ++ t) = Wd x).
    { change ("(" ++ x ++ ")" ++ t)%string with (String "(" (x ++ String ")" t)). rewrite R_first, W_first, R_cut, W_cut by reflexivity.
      destruct (R_blank t "" Ht) as [F1 F2]. assert (E : forall z, (z ++ "")%string = z) by (induction z; cbn; congruence). rewrite E in F1, F2. rewrite F1, F2.
      change (R "") with ""%string. change (Wd "") with (@nil (list ascii)). rewrite E, app_nil_r. now split. }
    destruct E5 as [E5 E6]. split.
    + unfold piece. rewrite E3, E4, E5, E6. split; [|split; [|split; [|split]]].
      * destruct s as [|c s]; [eexists _, _; split; [reflexivity|now left]|]. apply blank_cons in Hs. destruct Hs as [-> _]. eexists _, _. split; [reflexivity|right; now left].
      * apply (LS_app s [] _ _ (LS_blank s Hs)). apply (LS_app "(" [TLP]); [reflexivity|]. apply LS_app; [exact A2|].
        apply (LS_app ")" [TRP] t []); [reflexivity|now apply LS_blank].
      * eexists _, _. split; [reflexivity|now left].
      * exact A4.
      * exact A5.
    + intros r Hr. apply (pok_lift 11); [lia| |exact Hr|apply hd_LP; eexists; reflexivity]. cbn [app]. rewrite <- app_assoc. cbn [app]. apply pok_paren.
      apply (pok_lift 7); [lia| |reflexivity|apply hd_heads; [lia|exact A3]]. apply Hp; [reflexivity|now apply lok_stop].
  - (* minus *)
    intros s x e Hs _ (ts & (A1 & A2 & A3 & A4 & A5) & Hp). exists (TMinus :: ts).
    destruct (R_blank s ("-" ++ x) Hs) as [E3 E4]. change ("-" ++ x)%string with (String "-" x) in *. rewrite R_first in E3 by reflexivity. rewrite W_first in E4 by reflexivity. split.
    + unfold piece. change ("-" ++ x)%string with (String "-" x). rewrite E3, E4. split; [|split; [|split; [|split]]].
      * destruct s as [|c s]; [eexists _, _; split; [reflexivity|simpl; tauto]|]. apply blank_cons in Hs. destruct Hs as [-> _]. eexists _, _. split; [reflexivity|right; now left].
      * apply (LS_app s [] _ _ (LS_blank s Hs)). exact (LS_app "-" [TMinus] (R x) ts eq_refl A2).
      * eexists _, _. split; [reflexivity|simpl; tauto].
      * exact A4.
      * exact A5.
    + intros r Hr. apply pok_minus. now apply Hp.
  - (* plus *)
    intros s x e Hs _ (ts & (A1 & A2 & A3 & A4 & A5) & Hp). exists (TPlus :: ts).
    destruct (R_blank s ("+" ++ x) Hs) as [E3 E4]. change ("+" ++ x)%string with (String "+" x) in *. rewrite R_first in E3 by reflexivity. rewrite W_first in E4 by reflexivity. split.
    + unfold piece. change ("+" ++ x)%string with (String "+" x). rewrite E3, E4. split; [|split; [|split; [|split]]].
      * destruct s as [|c s]; [eexists _, _; split; [reflexivity|simpl; tauto]|]. apply blank_cons in Hs. destruct Hs as [-> _]. eexists _, _. split; [reflexivity|right; now left].
      * apply (LS_app s [] _ _ (LS_blank s Hs)). exact (LS_app "+" [TPlus] (R x) ts eq_refl A2).
      * eexists _, _. split; [reflexivity|simpl; tauto].
      * exact A4.
      * exact A5.
    + intros r Hr. destruct (Hp r Hr) as [Hl Hq]. split; [cbn [app length]; lia|]. intros fuel Hf. cbn [app length] in *.
      destruct fuel as [|f]; [lia|]. cbn [parse unary_tok]. rewrite Hq by lia. reflexivity.
  - (* factor *)
    intros x e _ (ts & A & Hp). exists ts. split; [exact A|]. intros r b r' Hs Hl. apply (pok_bin 8 _ (east e) r); [reflexivity| |exact Hl]. now apply Hp.
  - (* product *)
    intros x y e f _ (ts1 & A & Hp1) _ (ts2 & B & Hp2). exists (ts1 ++ TStar :: ts2). split.
    + apply (piece_op "*" TStar x y e f); [reflexivity|reflexivity|reflexivity| |exact A|exact B]. intros p ts. apply LS_op; [|reflexivity|reflexivity]. intros c Hc. simpl in Hc. repeat (destruct Hc as [<-|Hc]; [reflexivity|]). contradiction.
    + intros r b r' Hs Hl. rewrite <- app_assoc. cbn [app]. apply Hp1; [reflexivity|]. eapply lok_step; [reflexivity| |exact Hl]. now apply Hp2.
  - (* one product *)
    intros x e _ (ts & A & Hp). exists ts. split; [exact A|]. intros r b r' Hs Hl.
    apply (pok_bin 7 _ (east e) r); [reflexivity| |exact Hl]. apply Hp; [eapply stop_mono; [|exact Hs]; lia|now apply lok_stop].
  - intros x y e f _ (ts1 & A & Hp1) _ (ts2 & B & Hp2). exists (ts1 ++ TPlus :: ts2). split.
    + apply (piece_op "+" TPlus x y e f); [reflexivity|reflexivity|reflexivity| |exact A|exact B]. intros p ts _ H. exact (LS_app "+" [TPlus] p ts eq_refl H).
    + intros r b r' Hs Hl. rewrite <- app_assoc. cbn [app]. apply Hp1; [reflexivity|]. eapply lok_step; [reflexivity| |exact Hl].
      apply Hp2; [eapply stop_mono; [|exact Hs]; lia|now apply lok_stop].
  - intros x y e f _ (ts1 & A & Hp1) _ (ts2 & B & Hp2). exists (ts1 ++ TMinus :: ts2). split.
    + apply (piece_op "-" TMinus x y e f); [reflexivity|reflexivity|reflexivity| |exact A|exact B]. intros p ts _ H. exact (LS_app "-" [TMinus] p ts eq_refl H).
    + intros r b r' Hs Hl. rewrite <- app_assoc. cbn [app]. apply Hp1; [reflexivity|]. eapply lok_step; [reflexivity| |exact Hl].
      apply Hp2; [eapply stop_mono; [|exact Hs]; lia|now apply lok_stop].
Qed.

(** ** The whole equation *)
Definition rel_cmp (r : crel) : pycmp := match r with REq => PEq | RNe => PNe | RLt => PLt | RLe => PLe | RGt => PGt | RGe => PGe end.
Definition rel_tok (r : crel) : tok := match r with REq => TEqEq | RNe => TNe | RLt => TLt | RLe => TLe | RGt => TGt | RGe => TGe end.
Definition qast (q : equation) : ast := let '(Equation e r f) := q in ACmp (east e) [(rel_cmp r, east f)].
Definition qform (q : equation) : formula := let '(Equation e r f) := q in FBin (cmp_uop (rel_cmp r)) (eform e) (eform f).

Lemma LS_rel r p ts : starts p -> LS p ts -> LS (rel_text r ++ p) (rel_tok r :: ts).
Proof.
  intros H1 H2. destruct r; cbn [rel_text].
  - exact (LS_app "==" [TEqEq] p ts eq_refl H2).
  - exact (LS_app "!=" [TNe] p ts eq_refl H2).
  - apply LS_op; auto. intros c Hc. simpl in Hc. repeat (destruct Hc as [<-|Hc]; [reflexivity|]). contradiction.
  - exact (LS_app "<=" [TLe] p ts eq_refl H2).
  - apply LS_op; auto. intros c Hc. simpl in Hc. repeat (destruct Hc as [<-|Hc]; [reflexivity|]). contradiction.
  - exact (LS_app ">=" [TGe] p ts eq_refl H2).
Qed.

Lemma R_rel x r y : R (x ++ rel_text r ++ y) = (R x ++ rel_text r ++ R y)%string /\ Wd (x ++ rel_text r ++ y) = Wd x ++ Wd y.
Proof.
  destruct r; cbn [rel_text append]; rewrite R_cut, W_cut by reflexivity; rewrite ?R_first, ?W_first by reflexivity; now split.
Qed.

Lemma equation_text s q : text_equation s q ->
  (exists ts, lex (mod_source s) = Ok ts /\ parse_expr ts = Ok (qast q)) /\ cry_words s = map up (equation_words q) /\ words_ok (equation_words q).
Proof.
  intros [x y e r f Hx Hy]. destruct grammar as (_ & _ & G). destruct (G x e Hx) as (ts1 & (A1 & A2 & A3 & A4 & A5) & P1). destruct (G y f Hy) as (ts2 & (B1 & B2 & B3 & B4 & B5) & P2).
  rewrite mod_source_render, cry_words_scan. fold (R (x ++ rel_text r ++ y)) (Wd (x ++ rel_text r ++ y)). destruct (R_rel x r y) as [-> ->].
  split; [|split].
  - exists (ts1 ++ rel_tok r :: ts2). split.
    + assert (H : LS (R x ++ rel_text r ++ R y) (ts1 ++ rel_tok r :: ts2)) by (apply LS_app; [exact A2|now apply LS_rel]).
      unfold lex. unfold LS in H. rewrite H. cbn. now rewrite app_nil_r.
    + assert (Hp : pok 0 (ts1 ++ rel_tok r :: ts2) (qast (Equation e r f)) []).
      { apply (pok_lift 3); [lia| |reflexivity|apply hd_heads; [lia|exact A3]]. apply (pok_cmp _ _ (rel_tok r) (rel_cmp r) ts2); [destruct r; reflexivity| | |reflexivity].
        - apply (pok_lift 7); [lia| |destruct r; reflexivity|apply hd_heads; [lia|exact A3]]. apply P1; [destruct r; reflexivity|]. apply lok_stop. destruct r; reflexivity.
        - rewrite <- (app_nil_r ts2). apply (pok_lift 7); [lia| |reflexivity|apply hd_heads; [lia|exact B3]]. apply P2; [reflexivity|now apply lok_stop]. }
      unfold parse_expr. destruct Hp as [_ Hp]. rewrite Hp; [reflexivity|]. unfold parse_fuel. cbn [length]. lia.
  - cbn [equation_words]. now rewrite A4, B4, map_app.
  - intros w Hw. cbn [equation_words] in Hw. apply in_app_or in Hw. destruct Hw; auto.
Qed.

(** ** Values *)
Lemma char_value_dv a c v : (is_dig c \/ exists u, stands_for c u) -> (char_value a c v <-> v = dv a (upper_char c)).
Proof.
  intros Hc. unfold char_value, dv. rewrite upper_digit. destruct (isdigit c) eqn:Ed.
  - assert (Hd : is_dig c) by now apply isdigit_spec. rewrite (upper_dig c Hd). split.
    + intros [[_ E]|(u & Hu & _)]; [exact E|]. apply stands_upper in Hu. destruct Hu as [Hu E]. rewrite (upper_dig c Hd) in E. subst u. unfold is_dig, is_upper in *. lia.
    + intros ->. left. now split.
  - assert (Hd : ~ is_dig c) by (rewrite <- isdigit_spec; congruence). destruct Hc as [Hc|(u & Hu)]; [contradiction|]. split.
    + intros [[H _]|(u' & Hu' & E)]; [contradiction|]. apply stands_upper in Hu'. destruct Hu' as [_ <-]. exact E.
    + intros ->. right. exists u. split; [exact Hu|]. apply stands_upper in Hu. destruct Hu as [_ <-]. reflexivity.
Qed.

Lemma word_value_V a w n : is_word w -> (word_value a w n <-> n = V a (up w)).
Proof.
  intros [_ Hw]. unfold word_value.
  assert (HF : forall vs, Forall2 (char_value a) w vs <-> vs = map (fun c => dv a (upper_char c)) w).
  { clear n. induction w as [|c w IH]; intros vs; cbn [map].
    - split; [intros H; now inversion H|intros ->; constructor].
    - specialize (IH (fun c' Hc' => Hw c' (or_intror Hc'))). split.
      + intros H. inversion H as [|? v ? vs' Hv Hvs]; subst. apply char_value_dv in Hv; [|apply Hw; now left]. apply IH in Hvs. congruence.
      + intros ->. constructor; [apply char_value_dv; [apply Hw; now left|reflexivity]|now apply IH]. }
  assert (HV : decimal (map (fun c => dv a (upper_char c)) w) = V a (up w)).
  { unfold decimal, V, up. generalize 0. clear. induction w as [|c w IH]; intros m; cbn [map fold_left]; [reflexivity|apply IH]. }
  split.
  - intros (vs & H & ->). apply HF in H. now rewrite H.
  - intros ->. eexists. split; [apply HF; reflexivity|now rewrite HV].
Qed.

Lemma value_evalue a e : words_ok (words_of e) -> forall n, value a e n <-> n = evalue a e.
Proof.
  induction e as [w|e IHe f IHf|e IHe f IHf|e IHe f IHf|e IHe|e IHe]; intros Hw n; cbn [evalue].
  - rewrite <- word_value_V by (apply Hw; now left). split; [intros H; now inversion H|intros H; now constructor].
  - specialize (IHe (fun w H => Hw w (in_or_app _ _ _ (or_introl H)))). specialize (IHf (fun w H => Hw w (in_or_app _ _ _ (or_intror H)))). split.
    + intros H. inversion H as [|? ? x y Hx Hy| | | |]; subst. apply IHe in Hx. apply IHf in Hy. congruence.
    + intros ->. constructor; [now apply IHe|now apply IHf].
  - specialize (IHe (fun w H => Hw w (in_or_app _ _ _ (or_introl H)))). specialize (IHf (fun w H => Hw w (in_or_app _ _ _ (or_intror H)))). split.
    + intros H. inversion H as [| |? ? x y Hx Hy| | |]; subst. apply IHe in Hx. apply IHf in Hy. congruence.
    + intros ->. constructor; [now apply IHe|now apply IHf].
  - specialize (IHe (fun w H => Hw w (in_or_app _ _ _ (or_introl H)))). specialize (IHf (fun w H => Hw w (in_or_app _ _ _ (or_intror H)))). split.
    + intros H. inversion H as [| | |? ? x y Hx Hy| |]; subst. apply IHe in Hx. apply IHf in Hy. congruence.
    + intros ->. constructor; [now apply IHe|now apply IHf].
  - specialize (IHe Hw). split.
    + intros H. inversion H as [| | | |? x Hx|]; subst. apply IHe in Hx. congruence.
    + intros ->. constructor. now apply IHe.
  - specialize (IHe Hw). split.
    + intros H. inversion H as [| | | | |? x Hx]; subst. now apply IHe in Hx.
    + intros ->. constructor. now apply IHe.
Qed.

Lemma eform_meaning P a e : meaning P a (eform e) = Some (evalue a e).
Proof. induction e; cbn [eform evalue meaning]; [apply wform_meaning| | | |now rewrite IHe|exact IHe]; rewrite IHe1, IHe2; reflexivity. Qed.

(** The letters of some words. *)
Definition has_letter (ws : list (list ascii)) (x : name) : Prop :=
  exists w c, In w ws /\ In c w /\ isdigit (upper_char c) = false /\ x = letter (upper_char c).

Lemma has_letter_app ws ws' x : has_letter (ws ++ ws') x <-> has_letter ws x \/ has_letter ws' x.
Proof.
  unfold has_letter. split.
  - intros (w & c & Hw & H). apply in_app_or in Hw. destruct Hw as [Hw|Hw]; [left|right]; exists w, c; auto.
  - intros [(w & c & Hw & H)|(w & c & Hw & H)]; exists w, c; (split; [apply in_or_app|exact H]); auto.
Qed.

Lemma word_in_word w c : is_word w -> In c (up w) -> in_word c.
Proof. intros [_ Hw] Hc. unfold up in Hc. apply in_map_iff in Hc. destruct Hc as (d & <- & Hd). apply word_char_spec, word_upper. now apply Hw. Qed.

Lemma eform_class e : words_ok (words_of e) ->
  div_ok (eform e) = true /\ f_arith (eform e) = true /\ f_str (eform e) = true /\ forall x, In x (fvars (eform e)) <-> has_letter (words_of e) x.
Proof.
  assert (Hbin : forall u e f g, (g = EAdd e f /\ u = UAdd) \/ (g = ESub e f /\ u = USub) \/ (g = EMul e f /\ u = UMul) ->
    (words_ok (words_of e) -> div_ok (eform e) = true /\ f_arith (eform e) = true /\ f_str (eform e) = true /\ forall x, In x (fvars (eform e)) <-> has_letter (words_of e) x) ->
    (words_ok (words_of f) -> div_ok (eform f) = true /\ f_arith (eform f) = true /\ f_str (eform f) = true /\ forall x, In x (fvars (eform f)) <-> has_letter (words_of f) x) ->
    words_ok (words_of e ++ words_of f) ->
    div_ok (FBin u (eform e) (eform f)) = true /\ f_arith (FBin u (eform e) (eform f)) = true /\ f_str (FBin u (eform e) (eform f)) = true /\
    forall x, In x (fvars (FBin u (eform e) (eform f))) <-> has_letter (words_of e ++ words_of f) x).
  { clear e. intros u e f g Hu He Hf Hw. destruct (He (fun w H => Hw w (in_or_app _ _ _ (or_introl H)))) as (A1 & A2 & A3 & A4).
    destruct (Hf (fun w H => Hw w (in_or_app _ _ _ (or_intror H)))) as (B1 & B2 & B3 & B4).
    split; [|split; [|split]].
    - destruct Hu as [[_ ->]|[[_ ->]|[_ ->]]]; cbn; now rewrite A1, B1.
    - destruct Hu as [[_ ->]|[[_ ->]|[_ ->]]]; cbn; rewrite A2, B2; try reflexivity. now rewrite B3.
    - destruct Hu as [[_ ->]|[[_ ->]|[_ ->]]]; cbn; now rewrite A3, B3.
    - intros x. cbn [fvars]. rewrite in_app_iff, A4, B4. symmetry. apply has_letter_app. }
  induction e as [w|e IHe f IHf|e IHe f IHf|e IHe f IHf|e IHe|e IHe]; intros Hw.
  - assert (Hi : is_word w) by (apply Hw; now left). destruct (wform_class (up w)) as (A1 & A2 & A3 & A4); [intros c Hc; now apply (word_in_word w)|].
    cbn [eform words_of]. split; [exact A1|]. split; [exact A2|]. split; [exact A3|]. intros x. rewrite A4. unfold has_letter, up. split.
    + intros (c & Hc & H). apply in_map_iff in Hc. destruct Hc as (d & <- & Hd). exists w, d. split; [now left|]. split; [exact Hd|exact H].
    + intros (w' & c & [<-|[]] & Hc & H). exists (upper_char c). split; [now apply in_map|exact H].
  - eapply Hbin; auto.
  - eapply Hbin; auto.
  - eapply Hbin; auto 6.
  - destruct (IHe Hw) as (A1 & A2 & A3 & A4). cbn. rewrite A1, A2, A3. auto.
  - exact (IHe Hw).
Qed.

Lemma letter_of_has ws x : words_ok ws -> (letter_in ws x <-> has_letter ws x).
Proof.
  intros Hok. unfold letter_in, has_letter. split.
  - intros (w & c & u & Hw & Hc & Hu & ->). apply stands_upper in Hu. destruct Hu as [Hu E]. exists w, c. split; [exact Hw|]. split; [exact Hc|]. rewrite E. split; [|reflexivity].
    destruct (isdigit u) eqn:Ed; [|reflexivity]. apply isdigit_spec in Ed. unfold is_upper, is_dig in *. lia.
  - intros (w & c & Hw & Hc & Hd & ->). exists w, c, (upper_char c). split; [exact Hw|]. split; [exact Hc|]. split; [|reflexivity].
    destruct (Hok w Hw) as [_ Hwc]. destruct (Hwc c Hc) as [H|(u & Hu)].
    + apply isdigit_spec in H. rewrite upper_digit in Hd. congruence.
    + assert (E := Hu). apply stands_upper in E. destruct E as [_ ->]. exact Hu.
Qed.

Lemma leading_iff ws x : words_ok ws ->
  (leading_in ws x <-> exists c w, In (c :: w) ws /\ isdigit (upper_char c) = false /\ x = letter (upper_char c)).
Proof.
  intros Hok. unfold leading_in. split.
  - intros (w & c & u & Hw & Hu & ->). apply stands_upper in Hu. destruct Hu as [Hu E]. exists c, w. split; [exact Hw|]. rewrite E. split; [|reflexivity].
    destruct (isdigit u) eqn:Ed; [|reflexivity]. apply isdigit_spec in Ed. unfold is_upper, is_dig in *. lia.
  - intros (c & w & Hw & Hd & ->). exists w, c, (upper_char c). split; [exact Hw|]. split; [|reflexivity].
    destruct (Hok _ Hw) as [_ Hwc]. destruct (Hwc c (or_introl eq_refl)) as [H|(u & Hu)].
    + apply isdigit_spec in H. rewrite upper_digit in Hd. congruence.
    + assert (E := Hu). apply stands_upper in E. destruct E as [_ ->]. exact Hu.
Qed.

(** ** [eval] *)
Lemma east_formula xs e : words_ok (words_of e) -> (forall x, has_letter (words_of e) x -> In x xs) -> ast_formula xs (east e) = Ok (eform e).
Proof.
  assert (Hw : forall w, is_word w -> (forall x, has_letter [w] x -> In x xs) -> ast_formula xs (wast (up w)) = Ok (wform (up w))).
  { intros w Hw Hx. apply word_ast_formula. intros c Hc Hd. apply Hx. unfold up in Hc. apply in_map_iff in Hc. destruct Hc as (d & <- & Hin).
    exists w, d. split; [now left|auto]. }
  induction e as [w|e IHe f IHf|e IHe f IHf|e IHe f IHf|e IHe|e IHe]; intros Hok Hx; cbn [east eform ast_formula words_of] in *;
    [apply Hw; [apply Hok; now left|exact Hx]| | | |now rewrite IHe|now rewrite IHe];
    (rewrite IHe, IHf; [reflexivity|intros w H; apply Hok; apply in_or_app; auto|intros x H; apply Hx; apply has_letter_app; auto
                       |intros w H; apply Hok; apply in_or_app; auto|intros x H; apply Hx; apply has_letter_app; auto]).
Qed.

Definition holds (a : assignment) (q : equation) : Prop := let '(Equation e r f) := q in related r (evalue a e) (evalue a f).

Lemma qform_meaning P a q : exists v, meaning P a (qform q) = Some v /\ (v <> 0 <-> holds a q).
Proof.
  destruct q as [e r f]. cbn [qform holds]. destruct r; cbn [rel_cmp cmp_uop meaning]; rewrite !eform_meaning; cbn [arith related]; eexists; (split; [reflexivity|]).
  - destruct (Z.eqb_spec (evalue a e) (evalue a f)); split; intros; congruence || lia.
  - destruct (Z.eqb_spec (evalue a e) (evalue a f)); split; intros; congruence || lia.
  - destruct (Z.ltb_spec (evalue a e) (evalue a f)); split; intros; congruence || lia.
  - destruct (Z.leb_spec (evalue a e) (evalue a f)); split; intros; congruence || lia.
  - destruct (Z.ltb_spec (evalue a f) (evalue a e)); split; intros; congruence || lia.
  - destruct (Z.leb_spec (evalue a f) (evalue a e)); split; intros; congruence || lia.
Qed.

Lemma true_holds a q : words_ok (equation_words q) -> (true_equation a q <-> holds a q).
Proof.
  destruct q as [e r f]. intros Hok. cbn [true_equation holds equation_words] in *.
  assert (He := value_evalue a e (fun w H => Hok w (in_or_app _ _ _ (or_introl H)))). assert (Hf := value_evalue a f (fun w H => Hok w (in_or_app _ _ _ (or_intror H)))). split.
  - intros (m & n & H1 & H2 & H). apply He in H1. apply Hf in H2. now subst.
  - intros H. exists (evalue a e), (evalue a f). split; [now apply He|]. split; [now apply Hf|exact H].
Qed.

Lemma qform_class q : words_ok (equation_words q) ->
  div_ok (qform q) = true /\ f_safe (qform q) = true /\ is_comparison (qform q) = true /\ forall x, In x (fvars (qform q)) <-> has_letter (equation_words q) x.
Proof.
  destruct q as [e r f]. intros Hok. cbn [equation_words qform] in *.
  destruct (eform_class e (fun w H => Hok w (in_or_app _ _ _ (or_introl H)))) as (A1 & A2 & A3 & A4).
  destruct (eform_class f (fun w H => Hok w (in_or_app _ _ _ (or_intror H)))) as (B1 & B2 & B3 & B4).
  split; [|split; [|split]].
  - destruct r; cbn; now rewrite A1, B1.
  - destruct r; cbn; now rewrite A2, B2.
  - now destruct r.
  - intros x. cbn [fvars]. rewrite in_app_iff, A4, B4. symmetry. apply has_letter_app.
Qed.

Lemma eval_equation s q xs : text_equation s q -> (forall x, letter_of q x -> In x xs) -> eval_source xs (mod_source s) = Ok (qform q).
Proof.
  intros Ht Hx. destruct (equation_text s q Ht) as ((ts & E1 & E2) & _ & Hok). unfold eval_source. rewrite E1. cbn [bind]. rewrite E2. cbn [bind].
  assert (Hx' : forall x, has_letter (equation_words q) x -> In x xs) by (intros x H; apply Hx; now apply letter_of_has).
  assert (Ef : ast_formula xs (qast q) = Ok (qform q)).
  { destruct q as [e r f]. cbn [qast qform ast_formula equation_words] in *.
    rewrite (east_formula xs e), (east_formula xs f); [reflexivity|intros w H; apply Hok; apply in_or_app; auto|intros x H; apply Hx'; apply has_letter_app; auto
                       |intros w H; apply Hok; apply in_or_app; auto|intros x H; apply Hx'; apply has_letter_app; auto]. }
  rewrite Ef. cbn [bind]. destruct (qform_meaning (fun _ => 0) (fun _ => 0) q) as (v & Hv & _). destruct (qform_class q Hok) as (Hd & _).
  destruct (build_total (fun _ => 0) (fun _ => 0) (map (fun y => (y, 0)) (fvars (qform q))) (qform q) v) as (o & Ho); auto.
  { intros x Hin. exact (dget_map_fun (fun _ => 0) _ _ Hin). }
  now rewrite Ho.
Qed.

(** An equation in which a side depends on the letters. *)
Lemma depends_not_consts q : words_ok (equation_words q) -> depends_in q -> not_consts (qform q).
Proof.
  destruct q as [e r f]. intros Hok Hd u g h c d E Hg Hh. cbn [qform equation_words] in *. injection E as _ <- <-.
  assert (He := fun a => value_evalue a e (fun w H => Hok w (in_or_app _ _ _ (or_introl H)))). assert (Hf := fun a => value_evalue a f (fun w H => Hok w (in_or_app _ _ _ (or_intror H)))).
  destruct Hd as [(a & a' & m & m' & H1 & H2 & Hne)|(a & a' & m & m' & H1 & H2 & Hne)].
  - apply He in H1. apply He in H2. apply Hne. rewrite H1, H2.
    rewrite (build_const (fun _ => 0) (eform e) c a (evalue a e) Hg (eform_meaning _ _ _)), (build_const (fun _ => 0) (eform e) c a' (evalue a' e) Hg (eform_meaning _ _ _)). reflexivity.
  - apply Hf in H1. apply Hf in H2. apply Hne. rewrite H1, H2.
    rewrite (build_const (fun _ => 0) (eform f) d a (evalue a f) Hh (eform_meaning _ _ _)), (build_const (fun _ => 0) (eform f) d a' (evalue a' f) Hh (eform_meaning _ _ _)). reflexivity.
Qed.

(** The values depend on the letters only. *)
Lemma V_ext a a' w : (forall c, In c w -> isdigit c = false -> a (letter c) = a' (letter c)) -> V a w = V a' w.
Proof.
  intros H. unfold V. generalize 0. induction w as [|c w IH]; intros n; cbn [fold_left]; [reflexivity|].
  assert (E : dv a c = dv a' c) by (unfold dv; destruct (isdigit c) eqn:Ed; [reflexivity|apply H; [now left|exact Ed]]). rewrite E. apply IH. intros; apply H; auto. now right.
Qed.
Lemma evalue_ext a a' e : (forall x, has_letter (words_of e) x -> a x = a' x) -> evalue a e = evalue a' e.
Proof.
  assert (Hw : forall w, (forall x, has_letter [w] x -> a x = a' x) -> V a (up w) = V a' (up w)).
  { intros w H. apply V_ext. intros c Hc Hd. apply H. unfold up in Hc. apply in_map_iff in Hc. destruct Hc as (d & <- & Hin). exists w, d. split; [now left|auto]. }
  induction e as [w|e IHe f IHf|e IHe f IHf|e IHe f IHf|e IHe|e IHe]; intros H; cbn [evalue words_of] in *; [now apply Hw| | | |now rewrite IHe|now apply IHe];
    (rewrite IHe, IHf; [reflexivity|intros; apply H; apply has_letter_app; auto|intros; apply H; apply has_letter_app; auto]).
Qed.
Lemma holds_ext a a' q : (forall x, has_letter (equation_words q) x -> a x = a' x) -> holds a q -> holds a' q.
Proof.
  destruct q as [e r f]. cbn [holds equation_words]. intros H.
  rewrite (evalue_ext a a' e), (evalue_ext a a' f); [auto|intros; apply H; apply has_letter_app; auto|intros; apply H; apply has_letter_app; auto].
Qed.

(** ** Alphabetical order *)
Lemma letter_before_asym x y : letter_before x y -> letter_before y x -> False.
Proof.
  intros (u & v & -> & -> & H) (u' & v' & E1 & E2 & H'). injection E1 as <-. injection E2 as <-. lia.
Qed.
Lemma letter_before_irrefl x : ~ letter_before x x.
Proof. intros H. exact (letter_before_asym x x H H). Qed.

Lemma ordered_unique : forall l l', ForallOrdPairs letter_before l -> ForallOrdPairs letter_before l' ->
  (forall x, In x l <-> In x l') -> l = l'.
Proof.
  induction l as [|x l IH]; intros [|y l'] H1 H2 Hin; [reflexivity|exfalso; apply (proj2 (Hin y)); now left|exfalso; apply (proj1 (Hin x)); now left|].
  inversion H1 as [|? ? Hx Hl]; subst. inversion H2 as [|? ? Hy Hl']; subst. rewrite Forall_forall in Hx, Hy.
  assert (E : x = y).
  { destruct (proj1 (Hin x) (or_introl eq_refl)) as [E|H]; [congruence|]. destruct (proj2 (Hin y) (or_introl eq_refl)) as [E|H']; [congruence|].
    exfalso. exact (letter_before_asym x y (Hx y H') (Hy x H)). }
  subst y. f_equal. apply IH; auto. intros z. split; intros Hz.
  - destruct (proj1 (Hin z) (or_intror Hz)) as [<-|H]; [|exact H]. exfalso. exact (letter_before_irrefl x (Hx x Hz)).
  - destruct (proj2 (Hin z) (or_intror Hz)) as [<-|H]; [|exact H]. exfalso. exact (letter_before_irrefl x (Hy x Hz)).
Qed.

Lemma ordered_filter (p : name -> bool) l : ForallOrdPairs letter_before l -> ForallOrdPairs letter_before (filter p l).
Proof.
  induction 1 as [|x l Hx Hl IH]; cbn [filter]; [constructor|]. destruct (p x); [constructor; [|exact IH]|exact IH].
  rewrite Forall_forall in *. intros y Hy. apply filter_In in Hy. now apply Hx.
Qed.

Lemma ordered_NoDup l : ForallOrdPairs letter_before l -> NoDup l.
Proof.
  induction 1 as [|x l Hx Hl IH]; [constructor|]. constructor; [|exact IH]. intros H. rewrite Forall_forall in Hx. exact (letter_before_irrefl x (Hx x H)).
Qed.

Fixpoint increasing (n : Z) (l : list ascii) : bool := match l with [] => true | c :: l' => (n <? ord c) && increasing (ord c) l' end.
Lemma increasing_ordered : forall l n, increasing n l = true -> (forall c, In c l -> n < ord c) /\ ForallOrdPairs letter_before (map letter l).
Proof.
  induction l as [|c l IH]; intros n H; [split; [intros c []|constructor]|]. cbn [increasing] in H. apply andb_true_iff in H. destruct H as [H1 H2].
  apply Z.ltb_lt in H1. destruct (IH _ H2) as [I1 I2]. split.
  - intros d [<-|Hd]; [exact H1|]. specialize (I1 d Hd). lia.
  - cbn [map]. constructor; [|exact I2]. apply Forall_forall. intros y Hy. apply in_map_iff in Hy. destruct Hy as (d & <- & Hd).
    exists c, d. split; [reflexivity|]. split; [reflexivity|now apply I1].
Qed.
Lemma alphabet_ordered : ForallOrdPairs letter_before alphabet.
Proof. apply (increasing_ordered _ 0). vm_compute. reflexivity. Qed.

Lemma upper_alphabet u : is_upper u -> In (letter u) alphabet.
Proof.
  intros H. unfold alphabet. apply in_map. unfold is_upper in H.
  assert (E : u = ascii_of_N (Z.to_N (ord u))) by (unfold ord; rewrite N2Z.id; symmetry; apply ascii_N_embedding). rewrite E. set (z := ord u) in *. clearbody z. clear E u.
  assert (Hz : exists k, In k (seq 0 26) /\ z = 65 + Z.of_nat k) by (exists (Z.to_nat (z - 65)); rewrite in_seq; lia). destruct Hz as (k & Hk & ->).
  assert (Hall : forallb (fun k => existsb (Ascii.eqb (ascii_of_N (Z.to_N (65 + Z.of_nat k)))) (list_ascii_of_string "ABCDEFGHIJKLMNOPQRSTUVWXYZ")) (seq 0 26) = true) by (vm_compute; reflexivity).
  rewrite forallb_forall in Hall. specialize (Hall k Hk). apply existsb_exists in Hall. destruct Hall as (c & Hc & E). apply Ascii.eqb_eq in E. now rewrite E.
Qed.

Lemma mapM_get sol : forall l, (forall x, In x l -> dget sol x = Some (val sol x)) ->
  mapM (fun x => let! v := get_item sol x in Ok (x, v)) l = Ok (map (fun x => (x, val sol x)) l).
Proof.
  induction l as [|x l IH]; intros H; [reflexivity|]. cbn [mapM map]. unfold get_item at 1. rewrite (H x (or_introl eq_refl)). cbn [bind].
  rewrite IH by (intros; apply H; now right). reflexivity.
Qed.

Local Opaque alphabet.
Section Cry.
Variables (s : string) (ws : list (list ascii)) (q : equation) (order : list name -> list name) (avoid : bool).
Hypothesis Hwd : cry_words s = map up ws.
Hypothesis Hwok : words_ok ws.
Hypothesis Hsub : forall w, In w (equation_words q) -> In w ws.
Hypothesis Hev : forall xs, (forall x, letter_in ws x -> In x xs) -> eval_source xs (mod_source s) = Ok (qform q).
Hypothesis Hnc : not_consts (qform q).
Hypothesis Hlet : exists x, letter_in ws x.
Hypothesis Hord : shuffles order.
Let P0 : nat -> Z := fun _ => 0.
Let letters := order (dedup (cry_letters s)).
Let dom (x : name) : list Z := if memb x (cry_nonzero s) then tl digits_domain else digits_domain.
Let Vs : dict (list Z) := flat_map (fun x => [(x, dom x)]) letters.
Let Cs : list pbody := [PDiff letters; PForm (qform q)].
Definition L : list name := filter (fun x => memb x letters) alphabet.

Lemma c_ok : words_ok (equation_words q). Proof. intros w Hw. apply Hwok. auto. Qed.
Lemma c_has x : has_letter (equation_words q) x -> letter_in ws x.
Proof. intros (w & c & Hw & H). apply letter_of_has; [exact Hwok|]. exists w, c. auto. Qed.

Lemma c_letters x : In x letters <-> letter_in ws x.
Proof.
  rewrite (letter_of_has ws x Hwok). unfold letters. split; intros H.
  - apply (Permutation.Permutation_in _ (Hord _)) in H. apply (proj1 (dedup_In _ _)) in H. unfold cry_letters in H. apply in_map_iff in H. destruct H as (c & <- & Hc).
    apply filter_In in Hc. destruct Hc as [Hc Hd]. apply in_concat in Hc. destruct Hc as (w & Hw & Hc). rewrite Hwd in Hw. apply in_map_iff in Hw. destruct Hw as (w' & <- & Hw').
    unfold up in Hc. apply in_map_iff in Hc. destruct Hc as (d & <- & Hin). exists w', d. apply negb_true_iff in Hd. auto.
  - apply (Permutation.Permutation_in _ (Permutation.Permutation_sym (Hord _))). apply (proj2 (dedup_In _ _)). unfold cry_letters. destruct H as (w & c & Hw & Hc & Hd & ->).
    apply in_map. apply filter_In. split; [|now rewrite Hd]. apply in_concat. exists (up w). split; [rewrite Hwd; now apply in_map|]. unfold up. now apply in_map.
Qed.

Lemma c_nonzero x : In x (cry_nonzero s) <-> leading_in ws x.
Proof.
  rewrite (leading_iff ws x Hwok). unfold cry_nonzero. rewrite in_flat_map, Hwd. split.
  - intros (w & Hw & Hx). apply in_map_iff in Hw. destruct Hw as (w' & <- & Hw'). destruct w' as [|c w']; [contradiction|]. cbn [up map] in Hx.
    destruct (isdigit (upper_char c)) eqn:Ed; [contradiction|]. destruct Hx as [<-|[]]. exists c, w'. auto.
  - intros (c & w & Hw & Hd & ->). exists (up (c :: w)). split; [now apply in_map|]. cbn [up map]. rewrite Hd. now left.
Qed.

Lemma c_NoDup : NoDup letters.
Proof. unfold letters. eapply Permutation.Permutation_NoDup; [apply Permutation.Permutation_sym, Hord|]. apply dedup_NoDup. Qed.

Lemma c_upper x : letter_in ws x -> exists u, is_upper u /\ x = letter u.
Proof. intros (w & c & u & _ & _ & [Hu _] & ->). now exists u. Qed.

Lemma c_good x : letter_in ws x -> good_name x = true.
Proof.
  intros H. destruct (c_upper x H) as (u & Hu & ->). cbn. rewrite andb_true_r. unfold isalpha. change (code_of u) with (ord u). unfold is_upper in Hu.
  rewrite (proj2 (Z.leb_le 65 (ord u))), (proj2 (Z.leb_le (ord u) 90)) by lia. reflexivity.
Qed.

Lemma c_L x : In x L <-> letter_in ws x.
Proof.
  unfold L. rewrite filter_In, memb_In, c_letters. split; [tauto|]. intros H. split; [|exact H].
  destruct (c_upper x H) as (u & Hu & ->). now apply upper_alphabet.
Qed.
Lemma c_L_ordered : ForallOrdPairs letter_before L.
Proof. apply ordered_filter, alphabet_ordered. Qed.

Lemma c_dom x v : In v (dom x) <-> 0 <= v <= 9 /\ (leading_in ws x -> v <> 0).
Proof.
  unfold dom. rewrite <- c_nonzero. destruct (memb x (cry_nonzero s)) eqn:E.
  - apply memb_In in E. change (tl digits_domain) with (zrange 1 10). rewrite zrange_In. split; [intros H; split; [lia|lia]|intros [H1 H2]; specialize (H2 E); lia].
  - assert (Hn : ~ In x (cry_nonzero s)) by (rewrite <- memb_In; congruence). unfold digits_domain. rewrite zrange_In. split; [intros H; split; [lia|contradiction]|lia].
Qed.

Lemma c_names x : In x (names_of Vs) <-> letter_in ws x.
Proof.
  rewrite <- c_letters. unfold Vs. rewrite names_flat. split; [intros (y & Hy & [E|[]]); cbn in E; now subst|intros H; exists x; split; [exact H|now left]].
Qed.

Lemma c_In x d : In (x, d) Vs <-> letter_in ws x /\ d = dom x.
Proof.
  rewrite <- c_letters. unfold Vs. rewrite in_flat_map. split; [intros (y & Hy & [E|[]])|intros [H ->]; exists x; split; [exact H|now left]].
  injection E as <- <-. now split.
Qed.

Lemma cry_adds : adds P0 [] (cry_init order s avoid) letters Vs Cs.
Proof.
  unfold cry_init. replace (avoid_loop avoid []) with (@nil name, @nil name) by (now destruct avoid). cbn [app]. change (order (dedup (cry_letters s))) with letters. change Cs with ([] ++ [] ++ [PDiff letters] ++ [PForm (qform q)] ++ []).
  replace Vs with (Vs ++ [] ++ [] ++ [] ++ []) by now rewrite !app_nil_r.
  apply (adds_bind P0 [] _ _ (map (fun x => x) letters) letters Vs [] ([] ++ [] ++ [] ++ []) ([] ++ [PDiff letters] ++ [PForm (qform q)] ++ [])).
  { replace (@nil pbody) with (flat_map (fun _ : name => @nil pbody) letters) by (clear; induction letters; auto).
    apply (adds_for P0 (fun x => int_variable (dom x) x) (fun x => x) (fun x => [(x, dom x)]) (fun _ => []) letters []).
    intros l1 x l2 E. apply adds_intvar.
    - apply c_good. apply c_letters. rewrite E. apply in_or_app. right. now left.
    - rewrite app_nil_l, names_flat. intros (y & Hy & [Ey|[]]). cbn in Ey. subst y. pose proof c_NoDup as Hn. rewrite E in Hn. apply NoDup_remove_2 in Hn. apply Hn. apply in_or_app. now left.
    - unfold dom. destruct (memb x (cry_nonzero s)); [change (tl digits_domain) with (zrange 1 10)|unfold digits_domain]; apply zrange_NoDup. }
  rewrite app_nil_l.
  apply (adds_bind P0 Vs _ _ (qform q) letters [] [] ([] ++ [] ++ []) ([PDiff letters] ++ [PForm (qform q)] ++ [])).
  { apply (adds_ext P0 Vs (op_ret (qform q)) _ _ [] [] [] []); [apply adds_ret| |reflexivity|reflexivity].
    intros w. unfold op_ret. f_equal. symmetry. apply Hev. intros x. apply c_letters. }
  rewrite app_nil_r.
  apply (adds_bind P0 Vs _ _ tt letters [] [PDiff letters] ([] ++ []) ([PForm (qform q)] ++ [])).
  { apply adds_diff. intros x Hx. now apply c_names, c_letters. }
  rewrite app_nil_r.
  apply (adds_bind P0 Vs _ _ tt letters [] [PForm (qform q)] [] []); [|apply adds_ret].
  destruct (qform_class q c_ok) as (H1 & H2 & H3 & H4). apply adds_form.
  - exact Hnc.
  - intros x Hx. apply c_names. apply H4 in Hx. now apply c_has.
  - intros a. destruct (qform_meaning P0 a q) as (v & Hv & _). now exists v.
  - exact H1.
  - exact H3.
Qed.

Lemma c_decode sol : (forall x, letter_in ws x -> dget sol x = Some (val sol x)) -> cry_decode letters sol = Ok (map (fun x => (x, val sol x)) L).
Proof.
  intros H. assert (HL : forall x, In x L -> dget sol x = Some (val sol x)).
  { intros x Hx. apply H. apply (proj1 (c_L x)). exact Hx. }
  pose proof (mapM_get sol L HL) as E. exact E.
Qed.

Lemma lookup_map (f : name -> Z) l x : In x l -> lookup (map (fun y => (y, f y)) l) x = f x.
Proof.
  unfold lookup. induction l as [|y l IH]; intros H; [contradiction|]. cbn [map find fst]. destruct (String.eqb_spec y x) as [->|Hne]; [reflexivity|].
  apply IH. destruct H as [E|H]; [congruence|exact H].
Qed.

Lemma solution_shape b : solution_over ws q b -> b = map (fun x => (x, lookup b x)) L.
Proof.
  intros (H1 & H2 & _ & _ & _). assert (E : map fst b = L).
  { apply ordered_unique; [exact H2|apply c_L_ordered|]. intros x. now rewrite H1, c_L. }
  rewrite <- E. pose proof (ordered_NoDup _ H2) as Hn. clear - Hn. 
  assert (H : forall l, (forall p, In p l -> lookup b (fst p) = snd p) -> l = map (fun x => (x, lookup b x)) (map fst l)).
  { induction l as [|[x v] l IH]; intros H; [reflexivity|]. cbn [map fst]. f_equal; [|apply IH; intros; apply H; now right]. f_equal. symmetry. exact (H (x, v) (or_introl eq_refl)). }
  apply H. clear H. unfold lookup. induction b as [|[x v] b IH]; intros p Hp; [contradiction|]. cbn [map fst find] in *. inversion Hn as [|? ? Hx Hb]; subst.
  destruct Hp as [<-|Hp]; cbn [fst snd]; [now rewrite String.eqb_refl|]. destruct (String.eqb_spec x (fst p)) as [->|Hne]; [|now apply IH]. exfalso. apply Hx. now apply in_map.
Qed.

Lemma NoDup_map_inj {A B} (f : A -> B) l : NoDup (map f l) -> forall x y, In x l -> In y l -> f x = f y -> x = y.
Proof.
  induction l as [|a l IH]; intros H x y Hx Hy E; [contradiction|]. cbn [map] in H. inversion H as [|? ? Hn Hl]; subst.
  destruct Hx as [->|Hx], Hy as [->|Hy]; auto; [exfalso; apply Hn; rewrite E; now apply in_map|exfalso; apply Hn; rewrite <- E; now apply in_map].
Qed.

Lemma over_describes : describes (cry_init order s avoid) letters Vs Cs cry_decode (solution_over ws q).
Proof.
  constructor.
  - exact cry_adds.
  - intros E. destruct Hlet as (x & Hx). apply c_names in Hx. rewrite E in Hx. contradiction.
  - intros p [<-|[<-|[]]]; [exact I|]. now apply qform_class, c_ok.
  - intros sol [Hd Hc]. assert (Hg : forall x, letter_in ws x -> dget sol x = Some (val sol x) /\ In (val sol x) (dom x)).
    { intros x Hx. apply (Hd x (dom x)). now apply c_In. }
    eexists. split; [apply c_decode; intros x Hx; now apply Hg|].
    assert (Efst : map (@fst string Z) (map (fun x => (x, val sol x)) L) = L) by (rewrite map_map; apply map_id).
    assert (Hdiff : forall x y, In x letters -> In y letters -> x <> y -> val sol x <> val sol y) by exact (Hc (PDiff letters) (or_introl eq_refl)).
    unfold solution_over. rewrite Efst. split; [|split; [|split; [|split]]].
    + exact c_L.
    + exact c_L_ordered.
    + intros x v Hin. apply in_map_iff in Hin. destruct Hin as (y & Ey & Hy). injection Ey as <- <-. apply c_dom. apply Hg. now apply c_L.
    + rewrite map_map. cbn [snd]. pose proof (ordered_NoDup _ c_L_ordered) as Hn. assert (Hsub2 : forall x, In x L -> In x letters) by (intros x; rewrite c_L, c_letters; auto).
      clear - Hn Hdiff Hsub2. induction Hn as [|x l Hx Hl IH]; [constructor|]. cbn [map]. constructor; [|apply IH; intros; apply Hsub2; now right].
      intros Hin. apply in_map_iff in Hin. destruct Hin as (y & Ey & Hy). apply (Hdiff y x); [apply Hsub2; now right|apply Hsub2; now left|intros ->; contradiction|exact Ey].
    + apply true_holds; [exact c_ok|]. destruct (Hc (PForm (qform q)) (or_intror (or_introl eq_refl))) as (v & Hv & Hnz).
      destruct (qform_meaning P0 (val sol) q) as (v' & Hv' & Hiff). assert (v = v') by (unfold P0, PuzzleUserFacts.P0 in *; congruence). subst v'. apply Hiff in Hnz.
      apply (holds_ext (val sol)); [|exact Hnz]. intros x Hx. symmetry. apply (lookup_map (val sol)). apply c_L. now apply c_has.
  - intros s1 s2 b [Hd1 _] [Hd2 _] E1 E2 x Hx.
    rewrite c_decode in E1 by (intros y Hy; apply (Hd1 y (dom y)); now apply c_In). rewrite c_decode in E2 by (intros y Hy; apply (Hd2 y (dom y)); now apply c_In).
    apply c_names in Hx. apply c_L in Hx. rewrite <- (lookup_map (val s1) L x Hx), <- (lookup_map (val s2) L x Hx). congruence.
  - intros b Hb. exists (lookup b). pose proof (solution_shape b Hb) as Eb. destruct Hb as (H1 & H2 & H3 & H4 & H5).
    assert (HinL : forall x, letter_in ws x -> In (x, lookup b x) b).
    { intros x Hx. rewrite Eb at 2. apply in_map_iff. exists x. split; [reflexivity|now apply c_L]. }
    split; [|split].
    + intros x d Hin. apply c_In in Hin. destruct Hin as [Hx ->]. apply c_dom. now apply H3, HinL.
    + intros p [<-|[<-|[]]]; cbn [sat].
      * intros x y Hx Hy Hne E. apply Hne. rewrite Eb in H4. rewrite map_map in H4. cbn [snd] in H4.
        apply (NoDup_map_inj (lookup b) L); [exact H4|now apply c_L, c_letters|now apply c_L, c_letters|exact E].
      * destruct (qform_meaning P0 (lookup b) q) as (v & Hv & Hiff). exists v. split; [exact Hv|]. apply Hiff. apply true_holds; [exact c_ok|exact H5].
    + intros sol Hsol. assert (Hval : forall x, letter_in ws x -> val sol x = lookup b x) by (intros x Hx; unfold val, dget_or; rewrite (Hsol x) by (now apply c_names); reflexivity).
      rewrite c_decode.
      * apply (f_equal (@Ok subst)). transitivity (map (fun x => (x, lookup b x)) L); [|symmetry; exact Eb]. apply map_ext_in. intros x Hx. apply c_L in Hx. now rewrite Hval.
      * intros x Hx. rewrite Hval by exact Hx. apply Hsol. now apply c_names.
Qed.

Lemma over_exact clk shuffle o : shuffles shuffle ->
  exactly (fun fuel => cry_run clk shuffle fuel order s avoid o) (solution_over ws q) (o_timeout o) (o_limit o).
Proof. intros Hs. exact (describes_exactly clk shuffle _ _ _ _ _ _ _ _ _ _ over_describes Hs). Qed.
End Cry.

Lemma depends_letter q : words_ok (equation_words q) -> depends_in q -> exists x, letter_of q x.
Proof.
  intros Hok Hd. assert (Hc : forall e, words_ok (words_of e) -> depends e -> exists x, has_letter (words_of e) x).
  { intros e He (a & a' & m & m' & H1 & H2 & Hne). apply value_evalue in H1; [|exact He]. apply value_evalue in H2; [|exact He].
    set (ls := map (fun c => letter (upper_char c)) (filter (fun c => negb (isdigit (upper_char c))) (concat (words_of e)))).
    destruct ls as [|x ls'] eqn:El; subst ls.
    - exfalso. apply Hne. rewrite H1, H2. apply evalue_ext. intros x (w & c & Hw & Hc & Hdg & ->).
      assert (Hin : In (letter (upper_char c)) []); [|contradiction]. rewrite <- El.
      apply (in_map (fun c => letter (upper_char c))). apply filter_In. split; [apply in_concat; eauto|now rewrite Hdg].
    - exists x. assert (Hin : In x (x :: ls')) by now left. rewrite <- El in Hin. apply in_map_iff in Hin. destruct Hin as (c & <- & Hin).
      apply filter_In in Hin. destruct Hin as [Hin Hdg]. apply in_concat in Hin. destruct Hin as (w & Hw & Hc). apply negb_true_iff in Hdg. exists w, c. auto. }
  destruct q as [e r f]. unfold letter_of. cbn [equation_words depends_in] in *. destruct Hd as [Hd|Hd].
  - destruct (Hc e (fun w H => Hok w (in_or_app _ _ _ (or_introl H))) Hd) as (x & Hx). exists x. apply letter_of_has; [exact Hok|]. apply has_letter_app. now left.
  - destruct (Hc f (fun w H => Hok w (in_or_app _ _ _ (or_intror H))) Hd) as (x & Hx). exists x. apply letter_of_has; [exact Hok|]. apply has_letter_app. now right.
Qed.

Lemma cry_exact s q order avoid : text_equation s q -> depends_in q -> shuffles order -> forall clk shuffle o, shuffles shuffle ->
  exactly (fun fuel => cry_run clk shuffle fuel order s avoid o) (cry_solution q) (o_timeout o) (o_limit o).
Proof.
  intros Ht Hd Ho clk shuffle o Hs. destruct (equation_text s q Ht) as (_ & Hw & Hok).
  apply over_exact; auto; [intros xs Hx; now apply eval_equation|now apply depends_not_consts|now apply depends_letter].
Qed.

(** ** Words and segments *)
Lemma aeval_word sub a w : (forall c, In c w -> isdigit c = false -> dget sub (letter c) = Some (a (letter c))) -> aeval sub (wast w) = Ok (V a w).
Proof.
  intros Hs. rewrite <- word_parts_value. unfold wast. destruct (word_parts_ok w) as (_ & _ & Hk).
  assert (H : forall d u n, (forall p, In p d -> dget sub (fst p) = Some (a (fst p))) -> aeval sub u = Ok n ->
    aeval sub (fold_left (fun acc p => ABin PAdd acc (item_ast p)) d u) = Ok (n + D a d)).
  { clear. induction d as [|[x l] d IH]; intros u n Hd Hu; cbn [fold_left D]; [rewrite Hu; f_equal; lia|].
    rewrite (IH _ (n + a x * zs l)); [f_equal; lia|intros; apply Hd; now right|]. pose proof (Hd (x, l) (or_introl eq_refl)) as Hx. unfold item_ast. cbn [fst snd] in *.
    destruct (Z.eqb_spec (zs l) 1) as [E|E]; cbn [aeval]; rewrite Hu; cbn [bind]; rewrite Hx; cbn [bind py_bin]; [rewrite E; f_equal; lia|reflexivity]. }
  apply H; [|reflexivity]. intros [x l] Hin. assert (Hkey : In x (dkeys (wdict w))) by (unfold dkeys; change x with (fst (x, l)); now apply in_map).
  apply Hk in Hkey. destruct Hkey as (c & Hc & Hd & ->). cbn. auto.
Qed.

Lemma upper_id w : (forall c, In c w -> in_word c) -> up w = w.
Proof.
  intros H. unfold up. rewrite <- (map_id w) at 2. apply map_ext_in. intros c Hc. destruct (H c Hc) as [Hd|Hu]; [now apply upper_dig|].
  destruct (upper_char_spec c) as [[Hl _]|[_ E]]; [unfold is_upper, is_lower in *; lia|exact E].
Qed.
Lemma in_word_is_word w : w <> [] -> (forall c, In c w -> in_word c) -> is_word w.
Proof. intros Hn H. split; [exact Hn|]. intros c Hc. destruct (H c Hc) as [Hd|Hu]; [now left|right]. exists c. split; [exact Hu|now left]. Qed.

Lemma replaced s : exists rep u l,
  Forall2 uppercase (list_ascii_of_string s) u /\ segments l u /\
  list_ascii_of_string (mod_source s) = flat_map (fun g => match g with SWord w => list_ascii_of_string (rep w) | SChar c => [c] end) l /\
  forall w, In (SWord w) l -> exists ts t, lex (rep w) = Ok ts /\ parse_expr ts = Ok t /\
    forall a sub n, (forall c, In c w -> is_upper c -> dget sub (String c "") = Some (a (String c ""))) -> word_value a w n -> aeval sub t = Ok n.
Proof.
  exists word_expr, (upper s), (segs_of [] (upper s)). split; [|split; [|split]].
  - unfold upper. generalize (list_ascii_of_string s). intros l. induction l; cbn; constructor; [apply upper_char_spec|assumption].
  - exact (segs_segments (upper s) [] (fun c H => match H with end)).
  - rewrite mod_source_render, list_ascii_of_string_of_list_ascii. symmetry. exact (segs_render (upper s) []).
  - intros w Hw. destruct (segs_segments (upper s) [] (fun c H => match H with end)) as (_ & Hs & _). destruct (Hs w Hw) as [Hne Hin].
    exists (wtoks w), (wast w). pose proof (word_LS w Hin) as HL. split; [unfold lex; unfold LS in HL; rewrite HL; cbn; now rewrite app_nil_r|].
    split.
    + assert (Hp : pok 0 (wtoks w) (wast w) []).
      { rewrite <- (app_nil_r (wtoks w)). apply (pok_lift 11); [lia|apply pok_word|reflexivity|]. apply hd_LP. eexists; reflexivity. }
      unfold parse_expr. destruct Hp as [_ Hp]. rewrite Hp; [reflexivity|]. unfold parse_fuel. cbn [length]. lia.
    + intros a sub n Hsub Hv. apply word_value_V in Hv; [|now apply in_word_is_word]. rewrite upper_id in Hv by exact Hin. subst n. apply aeval_word.
      intros c Hc Hd. apply Hsub; [exact Hc|]. destruct (Hin c Hc) as [H|H]; [apply isdigit_spec in H; congruence|exact H].
Qed.
