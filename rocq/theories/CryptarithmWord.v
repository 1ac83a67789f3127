(** The replacement of a word denotes its decimal value. *)
From Verif Require Import ExprFacts Cryptarithm SpecCryptarithm Dec DecFacts PyTextFacts ParseFacts SpecSafe DictFacts CryptarithmText.
Open Scope list_scope.
Open Scope Z_scope.

Section W.
Variable a : assignment.

Definition dv (c : ascii) : Z := if isdigit c then code_of c - 48 else a (letter c).
Definition V (w : list ascii) : Z := fold_left (fun n c => 10 * n + dv c) w 0.
Definition zs (l : list Z) : Z := fold_left Z.add l 0.

Lemma V_from w : forall n, fold_left (fun n c => 10 * n + dv c) w n = n * 10 ^ Z.of_nat (length w) + V w.
Proof.
  unfold V. induction w as [|c w IH]; intros n; cbn [fold_left length].
  - rewrite Z.pow_0_r. lia.
  - rewrite IH, (IH (10 * 0 + dv c)). rewrite Nat2Z.inj_succ, Z.pow_succ_r by lia. ring.
Qed.
Lemma V_app w1 w2 : V (w1 ++ w2) = V w1 * 10 ^ Z.of_nat (length w2) + V w2.
Proof. unfold V at 1. rewrite fold_left_app. fold (V w1). apply V_from. Qed.
Lemma V_snoc w c : V (w ++ [c]) = V w * 10 + dv c.
Proof. rewrite V_app. cbn [length]. change (10 ^ Z.of_nat 1) with 10. unfold V at 2. cbn. lia. Qed.

Lemma zs_from l : forall n, fold_left Z.add l n = n + zs l.
Proof. unfold zs. induction l as [|v l IH]; intros n; cbn [fold_left]; [lia|]. rewrite IH, (IH (0 + v)). lia. Qed.
Lemma zs_snoc l v : zs (l ++ [v]) = zs l + v.
Proof. unfold zs. now rewrite fold_left_app. Qed.

Fixpoint D (d : dict (list Z)) : Z := match d with [] => 0 | (x, l) :: d' => a x * zs l + D d' end.

Lemma D_append d x v : D (lappend d x v) = D d + a x * v.
Proof.
  unfold lappend. induction d as [|[y l] d IH]; cbn [dget dset D].
  - unfold zs. cbn. lia.
  - destruct (String.eqb_spec x y) as [->|Hne].
    + cbn [D]. rewrite zs_snoc. ring.
    + cbn [D]. rewrite IH. lia.
Qed.

Lemma D_letters : forall l p d, (forall c, In c l -> isdigit c = false) -> D (letters_loop p l d) = D d + p * V (rev l).
Proof.
  induction l as [|c l IH]; intros p d H; cbn [letters_loop rev].
  - unfold V. cbn. lia.
  - rewrite IH by (intros; apply H; now right). rewrite D_append, V_snoc. assert (E : dv c = a (letter c)) by (unfold dv; now rewrite (H c (or_introl eq_refl))). rewrite E. ring.
Qed.

Lemma int_of_V part : (forall c, In c part -> isdigit c = true) -> int_of part = V part.
Proof.
  unfold int_of, V. generalize 0. induction part as [|c part IH]; intros n H; cbn [fold_left]; [reflexivity|].
  rewrite IH by (intros; apply H; now right). assert (E : dv c = code_of c - 48) by (unfold dv; now rewrite (H c (or_introl eq_refl))). rewrite E. f_equal. lia.
Qed.

Definition good_parts (ps : list (bool * list ascii)) : Prop := forall b g, In (b, g) ps -> forall c, In c g -> isdigit c = b.
Definition flat (ps : list (bool * list ascii)) : list ascii := concat (map snd ps).

Lemma parts_value : forall ps p n d, good_parts ps -> 
  let '(n', d') := parts_loop p n d ps in n' + D d' = n + D d + p * V (flat (rev ps)).
Proof.
  induction ps as [|[b g] ps IH]; intros p n d H; cbn [parts_loop].
  - unfold flat, V. cbn. lia.
  - assert (Hg : forall c, In c g -> isdigit c = b) by (apply (H b g); now left).
    assert (H' : good_parts ps) by (intros b' g' Hin; apply (H b' g'); now right).
    assert (E : V (flat (rev ((b, g) :: ps))) = V (flat (rev ps)) * 10 ^ Z.of_nat (length g) + V g).
    { cbn [rev]. unfold flat. rewrite map_app, concat_app. cbn. rewrite app_nil_r. apply V_app. }
    destruct b.
    + specialize (IH (p * 10 ^ Z.of_nat (length g)) (n + int_of g * p) d H'). destruct (parts_loop _ _ _ _) as [n' d'].
      rewrite IH, E, (int_of_V g Hg). ring.
    + specialize (IH (p * 10 ^ Z.of_nat (length g)) n (letters_loop p (rev g) d) H'). destruct (parts_loop _ _ _ _) as [n' d'].
      rewrite IH, E, D_letters, rev_involutive by (intros c Hc; apply Hg; now apply in_rev). ring.
Qed.
End W.

Lemma groupby_good w : good_parts (groupby w) /\ flat (groupby w) = w.
Proof.
  induction w as [|c w [H1 H2]]; [split; [intros b g []|reflexivity]|]. cbn [groupby]. destruct (groupby w) as [|[b g] gs].
  - cbn in H2. subst w. split; [|reflexivity]. intros b g [E|[]] d Hd. injection E as <- <-. destruct Hd as [<-|[]]. reflexivity.
  - destruct (Bool.eqb (isdigit c) b) eqn:E.
    + apply Bool.eqb_prop in E. split; [|cbn in *; now rewrite <- H2].
      intros b' g' [E'|Hin] d Hd; [injection E' as <- <-|apply (H1 b' g'); [now right|exact Hd]].
      destruct Hd as [<-|Hd]; [exact E|apply (H1 b g); [now left|exact Hd]].
    + split; [|cbn in *; now rewrite <- H2].
      intros b' g' [E'|Hin] d Hd; [injection E' as <- <-|apply (H1 b' g'); [exact Hin|exact Hd]]. destruct Hd as [<-|[]]. reflexivity.
Qed.

Definition wnum (w : list ascii) : Z := fst (parts_loop 1 0 [] (rev (groupby w))).
Definition wdict (w : list ascii) : dict (list Z) := snd (parts_loop 1 0 [] (rev (groupby w))).

Lemma word_parts_value a w : wnum w + D a (wdict w) = V a w.
Proof.
  destruct (groupby_good w) as [Hg Hf]. pose proof (parts_value a (rev (groupby w)) 1 0 []) as H.
  unfold wnum, wdict. destruct (parts_loop 1 0 [] (rev (groupby w))) as [n d]. cbn [fst snd]. rewrite H.
  - rewrite rev_involutive, Hf. cbn [D]. lia.
  - intros b g Hin. apply Hg. now apply in_rev.
Qed.

(** Keys, and signs of the coefficients *)
Definition dict_ok (d : dict (list Z)) : Prop := NoDup (dkeys d) /\ forall x l, In (x, l) d -> 0 <= zs l.

Lemma lappend_ok d x v : 0 <= v -> dict_ok d -> dict_ok (lappend d x v) /\ forall y, In y (dkeys (lappend d x v)) <-> y = x \/ In y (dkeys d).
Proof.
  intros Hv [H1 H2]. unfold lappend. split; [split|intros y; apply dset_In_keys].
  - now apply dset_NoDup.
  - set (nl := match dget d x with Some l => l ++ [v] | None => [v] end). assert (Hnl : 0 <= zs nl).
    { unfold nl. destruct (dget d x) as [l|] eqn:E; [|unfold zs; cbn; lia]. rewrite zs_snoc. specialize (H2 x l (dget_In _ _ _ E)). lia. }
    intros y l Hin. apply dget_NoDup in Hin; [|now apply dset_NoDup]. rewrite dget_dset in Hin. destruct (String.eqb y x); [injection Hin as <-; exact Hnl|].
    apply (H2 y). now apply dget_In.
Qed.

Lemma letters_ok : forall l p d, 0 <= p -> dict_ok d ->
  dict_ok (letters_loop p l d) /\ forall y, In y (dkeys (letters_loop p l d)) <-> In y (map letter l) \/ In y (dkeys d).
Proof.
  induction l as [|c l IH]; intros p d Hp Hd; cbn [letters_loop map In]; [split; [exact Hd|tauto]|].
  destruct (lappend_ok d (letter c) p Hp Hd) as [H1 H2]. destruct (IH (p * 10) (lappend d (letter c) p) ltac:(lia) H1) as [H3 H4].
  split; [exact H3|]. intros y. rewrite H4, H2. intuition congruence.
Qed.

Lemma int_of_nonneg part : (forall c, In c part -> isdigit c = true) -> 0 <= int_of part.
Proof.
  unfold int_of. assert (H : forall n, 0 <= n -> (forall c, In c part -> isdigit c = true) -> 0 <= fold_left (fun n c => n * 10 + (code_of c - 48)) part n); [|apply H; lia].
  induction part as [|c part IH]; intros n Hn H; cbn [fold_left]; [exact Hn|]. apply IH; [|intros; apply H; now right].
  specialize (H c (or_introl eq_refl)). apply isdigit_spec in H. unfold is_dig in H. rewrite <- !code_ord in H. lia.
Qed.

Lemma parts_ok : forall ps p n d, 0 <= p -> 0 <= n -> dict_ok d -> good_parts ps ->
  let '(n', d') := parts_loop p n d ps in 0 <= n' /\ dict_ok d' /\
  forall y, In y (dkeys d') <-> (exists c, In c (flat ps) /\ isdigit c = false /\ y = letter c) \/ In y (dkeys d).
Proof.
  induction ps as [|[b g] ps IH]; intros p n d Hp Hn Hd H; cbn [parts_loop].
  - split; [exact Hn|]. split; [exact Hd|]. intros y. split; [auto|intros [(c & [] & _)|Hy]; exact Hy].
  - assert (Hg : forall c, In c g -> isdigit c = b) by (apply (H b g); now left).
    assert (H' : good_parts ps) by (intros b' g' Hin; apply (H b' g'); now right).
    assert (Hp' : 0 <= p * 10 ^ Z.of_nat (length g)) by (apply Z.mul_nonneg_nonneg; [lia|apply Z.pow_nonneg; lia]).
    assert (Hfl : forall c, In c (flat ((b, g) :: ps)) <-> In c g \/ In c (flat ps)) by (intros c; unfold flat; cbn; apply in_app_iff).
    destruct b.
    + pose proof (int_of_nonneg g Hg) as Hi. specialize (IH (p * 10 ^ Z.of_nat (length g)) (n + int_of g * p) d Hp' ltac:(nia) Hd H'). destruct (parts_loop _ _ _ _) as [n' d'].
      destruct IH as (I1 & I2 & I3). split; [exact I1|]. split; [exact I2|]. intros y. rewrite I3. split; (intros [(c & Hc & Hdc & E)|Hy]; [left|now right]).
      * exists c. rewrite Hfl. auto.
      * apply Hfl in Hc. destruct Hc as [Hc|Hc]; [rewrite (Hg c Hc) in Hdc; discriminate|]. exists c. auto.
    + destruct (letters_ok (rev g) p d Hp Hd) as [L1 L2].
      specialize (IH (p * 10 ^ Z.of_nat (length g)) n (letters_loop p (rev g) d) Hp' Hn L1 H'). destruct (parts_loop _ _ _ _) as [n' d'].
      destruct IH as (I1 & I2 & I3). split; [exact I1|]. split; [exact I2|]. intros y. rewrite I3, L2. split.
      * intros [(c & Hc & Hdc & E)|[Hy|Hy]]; [left; exists c; rewrite Hfl; auto| |now right]. left. apply in_map_iff in Hy. destruct Hy as (c & <- & Hc).
        apply in_rev in Hc. exists c. rewrite Hfl. auto.
      * intros [(c & Hc & Hdc & ->)|Hy]; [|auto]. apply Hfl in Hc. destruct Hc as [Hc|Hc]; [right; left; apply in_map; now apply -> in_rev|left; exists c; auto].
Qed.

Lemma word_parts_ok w : 0 <= wnum w /\ dict_ok (wdict w) /\ forall y, In y (dkeys (wdict w)) <-> exists c, In c w /\ isdigit c = false /\ y = letter c.
Proof.
  destruct (groupby_good w) as [Hg Hf]. pose proof (parts_ok (rev (groupby w)) 1 0 []) as H. unfold wnum, wdict.
  destruct (parts_loop 1 0 [] (rev (groupby w))) as [n d]. cbn [fst snd]. destruct H as (H1 & H2 & H3).
  - lia.
  - lia.
  - split; [constructor|intros x l []].
  - intros b g Hin. apply Hg. now apply in_rev.
  - split; [exact H1|]. split; [exact H2|]. intros y. rewrite H3. assert (Hin : forall c, In c (flat (rev (groupby w))) <-> In c w).
    { intros c. rewrite <- Hf at 2. unfold flat. rewrite !in_concat. split; intros (l & Hl & Hc); exists l; (split; [|exact Hc]).
      - rewrite map_rev in Hl. now apply in_rev in Hl.
      - rewrite map_rev. now apply -> in_rev. }
    split; [intros [(c & Hc & E)|[]]; exists c; rewrite <- Hin; auto|intros (c & Hc & E); left; exists c; rewrite Hin; auto].
Qed.

(** ** Tokens *)
Definition item_text (p : name * list Z) : string :=
  if zs (snd p) =? 1 then fst p else ("(" ++ fst p ++ " * " ++ str_int (zs (snd p)) ++ ")")%string.
Definition item_toks (p : name * list Z) : list tok :=
  if zs (snd p) =? 1 then [TId (fst p)] else [TLP; TId (fst p); TStar; TNum (zs (snd p)); TRP].
Definition wtoks (w : list ascii) : list tok := TLP :: TNum (wnum w) :: flat_map (fun p => TPlus :: item_toks p) (wdict w) ++ [TRP].

Lemma word_expr_eq w : word_expr w = ("(" ++ sjoin " + " (str_int (wnum w) :: map item_text (wdict w)) ++ ")")%string.
Proof. unfold word_expr, wnum, wdict. destruct (parts_loop 1 0 [] (rev (groupby w))) as [n d]. reflexivity. Qed.

Lemma letter_name c : in_word c -> isdigit c = false -> name_ok (letter c) = true /\ Lx (letter c) [TId (letter c)].
Proof.
  intros Hw Hd. assert (Hu : is_upper c) by (destruct Hw as [H|H]; [apply isdigit_spec in H; congruence|exact H]). unfold is_upper in Hu.
  assert (Hi : identifier (letter c) = true).
  { cbn. rewrite andb_true_r. unfold isname_start, isalpha. rewrite code_ord. rewrite (proj2 (Z.leb_le 65 (ord c))), (proj2 (Z.leb_le (ord c) 90)) by lia. reflexivity. }
  assert (Hn : name_ok (letter c) = true).
  { unfold name_ok. rewrite Hi. cbn [andb]. assert (Hm : forall l, forallb (fun y => Nat.ltb 1 (String.length y)) l = true -> memb (letter c) l = false).
    { intros l H. destruct (memb (letter c) l) eqn:Hin; [|reflexivity]. exfalso. apply memb_In in Hin. rewrite forallb_forall in H. specialize (H _ Hin). discriminate. }
    rewrite !Hm by reflexivity. reflexivity. }
  split; [exact Hn|]. destruct (name_ok_tok _ Hn) as [_ E]. rewrite <- E. now apply Lx_name.
Qed.

Definition LS (s : string) (ts : list tok) : Prop := lex_run LStart s = Ok (ts, LStart).

Lemma LS_Lx s ts : LS s ts -> Lx s ts.
Proof. intros H. exists ts, LStart, []. split; [exact H|]. split; [exact I|]. split; [reflexivity|now rewrite app_nil_r]. Qed.
Lemma LS_close s t : Lx s t -> LS (s ++ ")") (t ++ [TRP]).
Proof.
  intros (t1 & st & t2 & H1 & H2 & H3 & ->). unfold LS. rewrite lex_run_app, H1. cbn [bind fst snd].
  cbn [lex_run]. rewrite (delim_step st ")" t2 H2 H3 eq_refl). cbn. rewrite app_nil_r. now rewrite app_assoc.
Qed.
Lemma LS_app s t s' t' : LS s t -> LS s' t' -> LS (s ++ s') (t ++ t').
Proof. unfold LS. intros H1 H2. rewrite lex_run_app, H1. cbn [bind fst snd]. now rewrite H2. Qed.


Lemma items_Lx : forall d s ts, Lx s ts -> (forall x l, In (x, l) d -> 0 <= zs l /\ Lx x [TId x]) ->
  Lx (sjoin " + " (s :: map item_text d)) (ts ++ flat_map (fun p => TPlus :: item_toks p) d).
Proof.
  induction d as [|[x l] d IH]; intros s ts Hs Hd; [cbn; rewrite app_nil_r; exact Hs|].
  change (sjoin " + " (s :: map item_text ((x, l) :: d))) with (s ++ String " " ("+ " ++ sjoin " + " (item_text (x, l) :: map item_text d)))%string.
  apply Lx_app; [exact Hs|reflexivity|]. cbn [flat_map].
  change (Lx (" + " ++ sjoin " + " (item_text (x, l) :: map item_text d)) ([TPlus] ++ item_toks (x, l) ++ flat_map (fun p => TPlus :: item_toks p) d)).
  apply Lx_open; [reflexivity|]. apply IH; [|intros; apply Hd; now right].
  destruct (Hd x l (or_introl eq_refl)) as [Hz Hx]. unfold item_text, item_toks. cbn [fst snd]. destruct (zs l =? 1); [exact Hx|].
  change [TLP; TId x; TStar; TNum (zs l); TRP] with ([TLP] ++ [TId x; TStar; TNum (zs l); TRP]).
  apply Lx_open; [reflexivity|]. change (Lx (x ++ String " " ("* " ++ str_int (zs l) ++ ")")) ([TId x] ++ [TStar; TNum (zs l); TRP])).
  apply Lx_app; [exact Hx|reflexivity|]. change (Lx (" * " ++ (str_int (zs l) ++ ")")) ([TStar] ++ ([TNum (zs l)] ++ [TRP]))).
  apply Lx_open; [reflexivity|]. apply Lx_close. unfold str_int. rewrite (proj2 (Z.ltb_ge (zs l) 0)) by lia. now apply Lx_nonneg.
Qed.

Lemma word_LS w : (forall c, In c w -> in_word c) -> LS (word_expr w) (wtoks w).
Proof.
  intros Hw. destruct (word_parts_ok w) as (H1 & [H2 H3] & H4). rewrite word_expr_eq. unfold wtoks.
  change (TLP :: TNum (wnum w) :: flat_map (fun p => TPlus :: item_toks p) (wdict w) ++ [TRP])
    with ([TLP] ++ (([TNum (wnum w)] ++ flat_map (fun p => TPlus :: item_toks p) (wdict w)) ++ [TRP])).
  apply LS_app; [reflexivity|]. apply LS_close. apply items_Lx.
  - unfold str_int. rewrite (proj2 (Z.ltb_ge (wnum w) 0)) by lia. now apply Lx_nonneg.
  - intros x l Hin. split; [now apply (H3 x)|]. assert (Hx : In x (dkeys (wdict w))) by (unfold dkeys; change x with (fst (x, l)); now apply in_map).
    apply H4 in Hx. destruct Hx as (c & Hc & Hd & ->). apply letter_name; auto.
Qed.

(** ** Parsing *)
Definition item_ast (p : name * list Z) : ast := if zs (snd p) =? 1 then AName (fst p) else ABin PMul (AName (fst p)) (ANum (zs (snd p))).
Definition wast (w : list ascii) : ast := fold_left (fun acc p => ABin PAdd acc (item_ast p)) (wdict w) (ANum (wnum w)).

Lemma pok_item p r : stop 9 r = true -> pok 8 (item_toks p ++ r) (item_ast p) r \/ stop 8 r = false.
Proof.
  intros Hs9. destruct (stop 8 r) eqn:Hs; [left|now right]. unfold item_toks, item_ast. destruct (zs (snd p) =? 1).
  - apply (pok_lift 11); [lia| |exact Hs|split; [lia|reflexivity]]. apply pok_name. eapply stop_mono; [|exact Hs]. lia.
  - apply (pok_lift 11); [lia| |exact Hs|split; [lia|reflexivity]]. cbn [app]. apply pok_paren.
    apply (pok_lift 8); [lia| |reflexivity|split; [discriminate|lia]].
    eapply (pok_bin 8); [reflexivity| |].
    + apply (pok_lift 11 9); [lia|apply pok_name; reflexivity|reflexivity|split; [lia|reflexivity]].
    + eapply lok_step; [reflexivity| |].
      * apply (pok_lift 11 9); [lia|apply pok_num|reflexivity|split; [lia|reflexivity]].
      * now apply lok_stop.
Qed.

Lemma lok_items : forall d acc r, stop 7 r = true ->
  lok 7 acc (flat_map (fun p => TPlus :: item_toks p) d ++ r) (fold_left (fun acc p => ABin PAdd acc (item_ast p)) d acc) r.
Proof.
  induction d as [|p d IH]; intros acc r Hs; [now apply lok_stop|]. cbn [flat_map fold_left]. rewrite <- app_assoc.
  assert (H8 : stop 8 (flat_map (fun p => TPlus :: item_toks p) d ++ r) = true).
  { destruct d; [eapply stop_mono; [|exact Hs]; lia|reflexivity]. }
  assert (H9 : stop 9 (flat_map (fun p => TPlus :: item_toks p) d ++ r) = true) by (eapply stop_mono; [|exact H8]; lia).
  change ((TPlus :: item_toks p) ++ flat_map (fun p => TPlus :: item_toks p) d ++ r) with (TPlus :: (item_toks p ++ flat_map (fun p => TPlus :: item_toks p) d ++ r)).
  eapply lok_step; [reflexivity| |apply IH; exact Hs]. destruct (pok_item p _ H9) as [H|H]; [exact H|congruence].
Qed.

Lemma pok_word w r : pok 11 (wtoks w ++ r) (wast w) r.
Proof.
  unfold wtoks. cbn [app]. rewrite <- app_assoc. cbn [app]. apply pok_paren.
  apply (pok_lift 7); [lia| |reflexivity|split; [discriminate|lia]].
  eapply (pok_bin 7); [reflexivity| |apply lok_items; reflexivity].
  apply (pok_lift 11); [lia|apply pok_num| |split; [lia|reflexivity]]. destruct (wdict w); reflexivity.
Qed.

(** ** Formulas *)
Definition item_form (p : name * list Z) : formula := if zs (snd p) =? 1 then FVar (fst p) else FBin UMul (FVar (fst p)) (FInt (zs (snd p))).
Definition wform (w : list ascii) : formula := fold_left (fun acc p => FBin UAdd acc (item_form p)) (wdict w) (FInt (wnum w)).

Lemma word_ast_formula w xs : (forall c, In c w -> isdigit c = false -> In (letter c) xs) -> ast_formula xs (wast w) = Ok (wform w).
Proof.
  intros Hx. destruct (word_parts_ok w) as (_ & _ & Hk). unfold wast, wform.
  assert (H : forall d u f, (forall p, In p d -> In (fst p) xs) -> ast_formula xs u = Ok f ->
    ast_formula xs (fold_left (fun acc p => ABin PAdd acc (item_ast p)) d u) = Ok (fold_left (fun acc p => FBin UAdd acc (item_form p)) d f)).
  { induction d as [|p d IH]; intros u f Hd Hu; [exact Hu|]. cbn [fold_left]. apply IH; [intros; apply Hd; now right|].
    cbn [ast_formula]. rewrite Hu. cbn [bind]. assert (Hp : memb (fst p) xs = true) by (apply memb_In; apply Hd; now left).
    unfold item_ast, item_form. destruct (zs (snd p) =? 1); cbn [ast_formula]; rewrite Hp; reflexivity. }
  apply H; [|reflexivity]. intros [x l] Hin. assert (Hkey : In x (dkeys (wdict w))) by (unfold dkeys; change x with (fst (x, l)); now apply in_map).
  apply Hk in Hkey. destruct Hkey as (c & Hc & Hd & ->). cbn. auto.
Qed.

Lemma wform_meaning P a w : meaning P a (wform w) = Some (V a w).
Proof.
  rewrite <- word_parts_value. unfold wform.
  assert (H : forall d f n, meaning P a f = Some n -> meaning P a (fold_left (fun acc p => FBin UAdd acc (item_form p)) d f) = Some (n + D a d)).
  { induction d as [|[x l] d IH]; intros f n Hf; cbn [fold_left D]; [rewrite Hf; f_equal; lia|].
    rewrite (IH _ (n + a x * zs l)); [f_equal; lia|]. unfold item_form. cbn [fst snd].
    destruct (Z.eqb_spec (zs l) 1) as [E|E].
    - cbn [meaning]. rewrite Hf, E. cbn [arith]. f_equal. lia.
    - cbn [meaning]. rewrite Hf. reflexivity. }
  now apply H.
Qed.

Lemma wform_class w : (forall c, In c w -> in_word c) ->
  div_ok (wform w) = true /\ f_arith (wform w) = true /\ f_str (wform w) = true /\
  forall x, In x (fvars (wform w)) <-> exists c, In c w /\ isdigit c = false /\ x = letter c.
Proof.
  intros Hw. destruct (word_parts_ok w) as (_ & _ & Hk).
  assert (Hn : forall p, In p (wdict w) -> name_ok (fst p) = true).
  { intros [x l] Hin. assert (Hkey : In x (dkeys (wdict w))) by (unfold dkeys; change x with (fst (x, l)); now apply in_map).
    apply Hk in Hkey. destruct Hkey as (c & Hc & Hd & ->). apply letter_name; auto. }
  unfold wform.
  assert (H : forall (d : list (name * list Z)) f, (forall p, In p d -> name_ok (fst p) = true) -> div_ok f = true -> f_arith f = true -> f_str f = true ->
    let g := fold_left (fun acc p => FBin UAdd acc (item_form p)) d f in
    div_ok g = true /\ f_arith g = true /\ f_str g = true /\ forall x, In x (fvars g) <-> In x (dkeys d) \/ In x (fvars f)).
  { clear Hk Hn; induction d as [|p d IH]; intros f Hd H1 H2 H3; cbn [fold_left]; [repeat split; auto; cbn; tauto|].
    assert (Hp : name_ok (fst p) = true) by (apply Hd; now left).
    assert (Hi : div_ok (item_form p) = true /\ f_arith (item_form p) = true /\ f_str (item_form p) = true /\ forall x, In x (fvars (item_form p)) <-> x = fst p).
    { unfold item_form. match goal with |- context [if ?b then _ else _] => destruct b end; cbn; rewrite ?Hp; (split; [reflexivity|split; [reflexivity|split; [reflexivity|intros y; split; [intros [Hx|[]]; auto|intros ->; auto]]]]). }
    destruct Hi as (I1 & I2 & I3 & I4).
    destruct (IH (FBin UAdd f (item_form p))) as (J1 & J2 & J3 & J4).
    - intros; apply Hd; now right.
    - cbn. now rewrite H1, I1.
    - cbn. now rewrite H2, I2.
    - cbn. now rewrite H3, I3.
    - split; [exact J1|]. split; [exact J2|]. split; [exact J3|]. intros x. rewrite J4. cbn [fvars dkeys map In]. rewrite in_app_iff, I4. intuition congruence. }
  destruct (H (wdict w) (FInt (wnum w)) Hn eq_refl eq_refl eq_refl) as (J1 & J2 & J3 & J4). split; [exact J1|]. split; [exact J2|]. split; [exact J3|].
  intros x. rewrite J4, Hk. cbn. tauto.
Qed.
