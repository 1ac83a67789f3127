(** The generated Python text of a [safe] expression lexes, parses and evaluates to
    the value given by [evaluate]. *)
From Verif Require Import Dec DecFacts PyText SpecFormula SpecSafe ExprFacts.
Open Scope list_scope.
Open Scope Z_scope.

(** ** Lexing *)

Lemma lex_run_app s1 : forall st s2,
  lex_run st (s1 ++ s2)%string =
  (let! r1 := lex_run st s1 in let! r2 := lex_run (snd r1) s2 in
   Ok ((fst r1 ++ fst r2)%list, snd r2)).
Proof.
  induction s1 as [|c s1 IH]; intros st s2; simpl.
  - destruct (lex_run st s2) as [[t st']|]; reflexivity.
  - destruct (lex_step st c) as [[t st']|]; [|reflexivity]. simpl. rewrite IH.
    destruct (lex_run st' s1) as [[t1 st1]|]; [|reflexivity]. simpl.
    destruct (lex_run st1 s2) as [[t2 st2]|]; [|reflexivity]. simpl.
    now rewrite app_assoc.
Qed.

Definition settled (st : lst) : Prop := match st with LOp _ => False | _ => True end.

(** [s] lexes to [ts], up to a pending number or name at the end. *)
Definition Lx (s : string) (ts : list tok) : Prop :=
  exists t1 st t2, lex_run LStart s = Ok (t1, st) /\ settled st /\ flush st = Ok t2 /\ ts = t1 ++ t2.

Definition delim (c : ascii) : bool :=
  existsb (Ascii.eqb c) [" "; "("; ")"; "["; "]"; ","; ":"]%char.

Lemma delim_step st c t2 : settled st -> flush st = Ok t2 -> delim c = true ->
  lex_step st c = (let! r := lex_start c in Ok (t2 ++ fst r, snd r)).
Proof.
  intros Hs Hf Hd. unfold delim in Hd. apply existsb_exists in Hd.
  destruct Hd as (d & Hin & He). apply Ascii.eqb_eq in He. subst d.
  assert (Hc : isdigit c = false /\ isname_start c = false /\ isname_char c = false).
  { simpl in Hin. repeat (destruct Hin as [<-|Hin]; [repeat split; reflexivity|]). contradiction. }
  destruct Hc as (H1 & H2 & H3).
  destruct st as [|z n|x|d]; simpl in Hs; try contradiction.
  - simpl in Hf. inversion Hf; subst. simpl. destruct (lex_start c) as [[? ?]|]; reflexivity.
  - cbn [lex_step]. rewrite H1, H2. unfold lex_flush_start. now rewrite Hf.
  - cbn [lex_step]. rewrite H3. unfold lex_flush_start. now rewrite Hf.
Qed.

Lemma Lx_app s1 t1 c s2 t2 :
  Lx s1 t1 -> delim c = true -> Lx (String c s2) t2 -> Lx (s1 ++ String c s2) (t1 ++ t2).
Proof.
  intros (a1 & st1 & b1 & Hr1 & Hs1 & Hf1 & ->) Hd (a2 & st2 & b2 & Hr2 & Hs2 & Hf2 & ->).
  exists ((a1 ++ b1) ++ a2), st2, b2. split; [|split; [|split]]; try assumption.
  - rewrite lex_run_app, Hr1. simpl. rewrite (delim_step st1 c b1) by assumption.
    simpl in Hr2. destruct (lex_start c) as [[t st]|]; [|discriminate]. simpl in *.
    destruct (lex_run st s2) as [[t' st']|]; [|discriminate]. simpl in *.
    inversion Hr2; subst. now rewrite !app_assoc.
  - now rewrite <- !app_assoc.
Qed.

Lemma Lx_open d t s ts : lex_run LStart d = Ok (t, LStart) -> Lx s ts -> Lx (d ++ s) (t ++ ts).
Proof.
  intros Hd (a & st & b & Hr & Hs & Hf & ->). exists (t ++ a), st, b.
  split; [|split; [|split]]; try assumption.
  - rewrite lex_run_app, Hd. simpl. rewrite Hr. reflexivity.
  - now rewrite app_assoc.
Qed.

Lemma Lx_lex s ts : Lx s ts -> lex s = Ok ts.
Proof.
  intros (a & st & b & Hr & Hs & Hf & ->). unfold lex. rewrite Hr. simpl. rewrite Hf. reflexivity.
Qed.

(** Numbers *)
Lemma is_digit_isdigit c : is_digit c = isdigit c.
Proof. reflexivity. Qed.

Lemma lex_run_digits s : forall z n, all_digits s = true ->
  lex_run (LNum z n) s = Ok ([], LNum z (dval n s)).
Proof.
  induction s as [|c s IH]; intros z n H; [reflexivity|].
  simpl in H. apply andb_true_iff in H. destruct H as [Hc Hs].
  cbn [lex_run lex_step]. rewrite <- is_digit_isdigit, Hc. simpl.
  fold (digit_val c). rewrite (IH z _ Hs). reflexivity.
Qed.

Lemma Lx_nonneg n : 0 <= n -> Lx (str_nonneg n) [TNum n].
Proof.
  intros Hn. destruct (str_nonneg_dec n Hn) as (Hall & Hv & c & s' & He & Hz).
  rewrite He in *. simpl in Hall. apply andb_true_iff in Hall. destruct Hall as [Hc Hs].
  exists [], (LNum (code_of c =? 48) n), [TNum n].
  split; [|split; [exact I|split; [|reflexivity]]].
  - cbn [lex_run lex_step]. unfold lex_start. rewrite <- is_digit_isdigit, Hc. simpl.
    rewrite lex_run_digits by assumption. simpl. simpl in Hv.
    unfold digit_val in Hv. unfold code_of. rewrite Hv. reflexivity.
  - simpl. destruct (Z.eqb_spec (code_of c) 48) as [H48|H48]; [|reflexivity].
    assert (H0 : digit_val c = 0) by (unfold digit_val; unfold code_of in H48; lia).
    rewrite (Hz H0) in Hv. simpl in Hv. rewrite H0 in Hv. subst n. reflexivity.
Qed.

Definition num_toks (z : Z) : list tok :=
  if z <? 0 then [TMinus; TNum (- z)] else [TNum z].
Lemma Lx_int z : Lx (str_int z) (num_toks z).
Proof.
  unfold str_int, num_toks. destruct (Z.ltb_spec z 0).
  - apply (Lx_open "-" [TMinus] (str_nonneg (- z)) [TNum (- z)]); [reflexivity|].
    apply Lx_nonneg. lia.
  - now apply Lx_nonneg.
Qed.

(** Names *)
Lemma lex_run_name s : forall x, all_name_chars s = true ->
  lex_run (LName x) s = Ok ([], LName (x ++ s)).
Proof.
  induction s as [|c s IH]; intros x H.
  - simpl. now rewrite sapp_nil_r.
  - simpl in H. apply andb_true_iff in H. destruct H as [Hc Hs].
    cbn [lex_run lex_step]. rewrite Hc. simpl. rewrite (IH _ Hs). simpl.
    now rewrite sapp_assoc.
Qed.

Lemma identifier_start c : isname_start c = true -> isdigit c = false.
Proof.
  unfold isname_start, isalpha, isdigit. intros H.
  apply orb_true_iff in H. destruct H as [H|H].
  - apply orb_true_iff in H. destruct H as [H|H]; apply andb_true_iff in H;
      rewrite !Z.leb_le in H; apply andb_false_iff; rewrite Z.leb_gt; right; rewrite Z.leb_gt; lia.
  - apply Z.eqb_eq in H. apply andb_false_iff. right. apply Z.leb_gt. lia.
Qed.

Lemma Lx_name x : identifier x = true -> Lx x [name_tok x].
Proof.
  destruct x as [|c s]; [discriminate|]. simpl. intros H. apply andb_true_iff in H.
  destruct H as [Hc Hs]. exists [], (LName (String c s)), [name_tok (String c s)].
  split; [|split; [exact I|split; reflexivity]].
  cbn [lex_run lex_step]. unfold lex_start. rewrite (identifier_start c Hc), Hc. simpl.
  rewrite lex_run_name by assumption. reflexivity.
Qed.

Lemma name_ok_tok x : name_ok x = true -> identifier x = true /\ name_tok x = TId x.
Proof.
  unfold name_ok. rewrite !andb_true_iff. intros [[Hi Hr] _]. split; [assumption|].
  apply negb_true_iff in Hr. change reserved with (["and"%string; "or"%string; "not"%string; "lambda"%string] ++ keywords)%list in Hr. unfold memb in Hr. rewrite existsb_app in Hr.
  apply orb_false_iff in Hr. destruct Hr as [Hr Hk].
  unfold name_tok. cbn [existsb] in Hr.
  repeat (apply orb_false_iff in Hr; destruct Hr as [? Hr]).
  repeat match goal with H : String.eqb x _ = false |- _ => rewrite H; clear H end.
  unfold memb. now rewrite Hk.
Qed.

Lemma name_ok_special x y : name_ok x = true -> In y ["sum"; "prod"; "abs"; "__dummy_kwargs"]%string -> x <> y.
Proof.
  unfold name_ok. rewrite !andb_true_iff. intros [_ Hs] Hy ->.
  apply negb_true_iff in Hs. apply memb_false in Hs. contradiction.
Qed.

(** Tokens of [py_expr] *)
Definition op_tok (o : binop) : tok :=
  match o with
  | OAdd => TPlus | OMul => TStar | OSub => TMinus | ODiv => TDSlash | OMod => TPercent
  | OPow => TDStar | OEq => TEqEq | ONe => TNe | OLt => TLt | OLe => TLe | OGt => TGt
  | OGe => TGe | OAnd => TAnd | OOr => TOr
  end.

Fixpoint tjoin (l : list (list tok)) : list tok :=
  match l with
  | [] => []
  | [x] => x
  | x :: l' => x ++ TComma :: tjoin l'
  end.

Definition values_toks (k : acckind) (c : Z) (l : list (list tok)) : list (list tok) :=
  if c =? neutral k then l else num_toks c :: l.

Fixpoint toks (ps : pstore) (e : expr) : list tok :=
  match e with
  | Const z => num_toks z
  | Var x => [TId x]
  | Param p _ => num_toks (ps p)
  | Neg e1 => TMinus :: TLP :: toks ps e1 ++ [TRP]
  | Abs e1 => TId "abs" :: TLP :: toks ps e1 ++ [TRP]
  | Not e1 => TNot :: toks ps e1
  | Bin OOr l r => toks ps l ++ TOr :: toks ps r
  | Bin o l r => TLP :: toks ps l ++ op_tok o :: toks ps r ++ [TRP]
  | Sum es c => TId "sum" :: TLP :: TLB :: tjoin (values_toks KSum c (map (toks ps) es)) ++ [TRB; TRP]
  | Prod es c => TId "prod" :: TLP :: TLB :: tjoin (values_toks KProd c (map (toks ps) es)) ++ [TRB; TRP]
  end.

Lemma str_safe_py ps e : str_safe e = true -> str_expr e = py_expr ps e.
Proof.
  induction e as [z|y|p y|e IH|e IH|e IH|o l r IHl IHr|es c IH|es c IH] using expr_ind';
    intros H; try reflexivity; try discriminate.
  - simpl in H. apply andb_true_iff in H. destruct H as [H Hr].
    apply andb_true_iff in H. destruct H as [Ho Hl].
    cbn [str_expr]. rewrite (IHl Hl), (IHr Hr).
    destruct o; try discriminate; reflexivity.
  - simpl in *. f_equal. apply map_ext_in. intros e He. rewrite Forall_forall in IH.
    apply IH; [assumption|]. rewrite forallb_forall in H. auto.
  - simpl in *. f_equal. apply map_ext_in. intros e He. rewrite Forall_forall in IH.
    apply IH; [assumption|]. rewrite forallb_forall in H. auto.
Qed.

Lemma Lx_join texts tss :
  Forall2 Lx texts tss -> texts <> [] -> Lx (sjoin ", " texts) (tjoin tss).
Proof.
  induction 1 as [|s t texts tss Hs Hr IH]; intros Hne; [contradiction|].
  destruct Hr as [|s2 t2 texts tss Hs2 Hr].
  - exact Hs.
  - cbn [sjoin tjoin].
    change (Lx (s ++ String "," (" " ++ sjoin ", " (s2 :: texts))) (t ++ TComma :: tjoin (t2 :: tss))).
    apply Lx_app; [assumption|reflexivity|].
    change (Lx (", " ++ sjoin ", " (s2 :: texts)) ([TComma] ++ tjoin (t2 :: tss))).
    apply Lx_open; [reflexivity|]. apply IH. discriminate.
Qed.

Lemma Lx_acc k c texts tss f :
  f = acc_fun k -> Forall2 Lx texts tss ->
  (3 <= length texts + (if Z.eqb c (neutral k) then 0 else 1))%nat ->
  Lx (as_str k c texts) (TId f :: TLP :: TLB :: tjoin (values_toks k c tss) ++ [TRB; TRP]).
Proof.
  intros -> Hf Hlen. unfold as_str.
  assert (Hv : Forall2 Lx (acc_values k c texts) (values_toks k c tss)).
  { unfold acc_values, values_toks. destruct (c =? neutral k); [assumption|].
    constructor; [apply Lx_int|assumption]. }
  assert (Hl : (3 <= length (acc_values k c texts))%nat).
  { unfold acc_values. destruct (c =? neutral k); simpl; lia. }
  destruct (acc_values k c texts) as [|v1 [|v2 [|v3 vs]]] eqn:Hvs; simpl in Hl; try lia.
  rewrite <- Hvs in *. 
  assert (Hne : acc_values k c texts <> []) by (rewrite Hvs; discriminate).
  pose proof (Lx_join _ _ Hv Hne) as Hj.
  assert (Hend : Lx (sjoin ", " (acc_values k c texts) ++ "])")
                    (tjoin (values_toks k c tss) ++ [TRB; TRP])).
  { apply Lx_app; [exact Hj|reflexivity|]. exists [TRB; TRP], LStart, []. repeat split; reflexivity. }
  rewrite Hvs in *.
  change (Lx (acc_fun k ++ String "(" ("[" ++ (sjoin ", " (v1 :: v2 :: v3 :: vs) ++ "])")))
             ([TId (acc_fun k)] ++ [TLP; TLB] ++ tjoin (values_toks k c tss) ++ [TRB; TRP])).
  apply Lx_app.
  - replace (TId (acc_fun k)) with (name_tok (acc_fun k)) by (destruct k; reflexivity).
    apply Lx_name. destruct k; reflexivity.
  - reflexivity.
  - change (Lx ("([" ++ (sjoin ", " (v1 :: v2 :: v3 :: vs) ++ "])"))
             ([TLP; TLB] ++ tjoin (values_toks k c tss) ++ [TRB; TRP])).
    apply Lx_open; [reflexivity|exact Hend].
Qed.

Lemma Forall2_map {A B C} (R : B -> C -> Prop) (f : A -> B) (g : A -> C) l :
  (forall x, In x l -> R (f x) (g x)) -> Forall2 R (map f l) (map g l).
Proof.
  induction l as [|a l IH]; intros H; simpl; constructor.
  - apply H; now left.
  - apply IH. intros x Hx; apply H; now right.
Qed.

Lemma Lx_close s t : Lx s t -> Lx (s ++ ")") (t ++ [TRP]).
Proof.
  intros H. apply (Lx_app s t ")" "" [TRP]); [assumption|reflexivity|].
  exists [TRP], LStart, []. repeat split; reflexivity.
Qed.

Lemma Lx_expr ps e : safe e = true -> Lx (py_expr ps e) (toks ps e).
Proof.
  induction e as [z|y|p y|e IH|e IH|e IH|o l r IHl IHr|es c IH|es c IH] using expr_ind'; intros H.
  - apply Lx_int.
  - simpl in *. destruct (name_ok_tok y H) as [Hi Ht]. rewrite <- Ht. now apply Lx_name.
  - apply Lx_int.
  - simpl in H. apply andb_true_iff in H. destruct H as [Hs H].
    cbn [py_expr toks]. rewrite (str_safe_py ps e Hs).
    apply (Lx_open "-(" [TMinus; TLP]); [reflexivity|]. apply Lx_close. auto.
  - simpl in H. apply andb_true_iff in H. destruct H as [Hs H].
    cbn [py_expr toks]. rewrite (str_safe_py ps e Hs).
    apply (Lx_open "abs(" [TId "abs"; TLP]); [reflexivity|]. apply Lx_close. auto.
  - simpl in H. apply andb_true_iff in H. destruct H as [Hs H].
    apply (Lx_open "not " [TNot]); [reflexivity|]. auto.
  - cbn [safe] in H. rewrite !andb_true_iff in H. destruct H as [[[_ _] Hl] Hr].
    specialize (IHl Hl). specialize (IHr Hr).
    assert (Hbin : o <> OOr -> Lx ("(" ++ py_expr ps l ++ " " ++ bin_py_symbol o ++ " " ++ py_expr ps r ++ ")")
                      (TLP :: toks ps l ++ op_tok o :: toks ps r ++ [TRP])).
    { intros Ho. apply (Lx_open "(" [TLP]); [reflexivity|].
      apply Lx_app; [assumption|reflexivity|].
      change (Lx (" " ++ (bin_py_symbol o ++ (" " ++ (py_expr ps r ++ ")"))))
               ([op_tok o] ++ (toks ps r ++ [TRP]))).
      rewrite <- !sapp_assoc. rewrite sapp_assoc with (b := py_expr ps r). apply Lx_open; [destruct o; reflexivity|].
      now apply Lx_close. }
    destruct o; try (apply Hbin; discriminate).
    cbn [py_expr toks].
    change (Lx (py_expr ps l ++ (" or " ++ py_expr ps r)) (toks ps l ++ ([TOr] ++ toks ps r))).
    apply Lx_app; [assumption|reflexivity|].
    apply (Lx_open " or " [TOr]); [reflexivity|assumption].
  - cbn [safe] in H. apply andb_true_iff in H. destruct H as [H3 H].
    rewrite forallb_forall in H. rewrite Forall_forall in IH.
    apply (Lx_acc KSum c _ _ "sum"); [reflexivity| |].
    + apply Forall2_map. auto.
    + rewrite map_length. unfold three_values in H3. now apply Nat.leb_le in H3.
  - cbn [safe] in H. apply andb_true_iff in H. destruct H as [H3 H].
    rewrite forallb_forall in H. rewrite Forall_forall in IH.
    apply (Lx_acc KProd c _ _ "prod"); [reflexivity| |].
    + apply Forall2_map. auto.
    + rewrite map_length. unfold three_values in H3. now apply Nat.leb_le in H3.
Qed.
