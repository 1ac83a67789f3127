(** Parsing and evaluating the tokens of a [safe] expression. *)
From Verif Require Import Dec DecFacts PyText SpecFormula SpecSafe ExprFacts PyTextFacts.
Open Scope list_scope.
Open Scope Z_scope.

Local Notation "a - b" := (Nat.sub a b) : nat_scope.

(** [pok lvl ts a r]: parsing [ts] at level [lvl] gives [a] and leaves [r], with any
    fuel proportional to the number of consumed tokens. *)
Definition pok (lvl : nat) (ts : list tok) (a : ast) (r : list tok) : Prop :=
  (length r < length ts)%nat /\
  forall fuel, (20 * (length ts - length r) + 21 - lvl <= fuel)%nat ->
    parse fuel lvl ts = Some (a, r).
Definition lok (lvl : nat) (acc : ast) (ts : list tok) (a : ast) (r : list tok) : Prop :=
  (length r <= length ts)%nat /\
  forall fuel, (20 * (length ts - length r) + 1 <= fuel)%nat ->
    parse_loop fuel lvl acc ts = Some (a, r).
Definition lsok (ts : list tok) (l : list ast) (r : list tok) : Prop :=
  (length r < length ts)%nat /\
  forall fuel, (20 * (length ts - length r) + 22 <= fuel)%nat ->
    parse_list fuel ts = Some (l, r).

Definition binlvl (lvl : nat) : bool :=
  match lvl with 0 | 1 | 4 | 5 | 6 | 7 | 8 => true | _ => false end%nat.

(** Level of the operator that a token would continue an expression with. *)
Definition oplevel (t : tok) : option nat :=
  match t with
  | TOr => Some 0 | TAnd => Some 1
  | TEqEq | TNe | TLt | TLe | TGt | TGe => Some 3
  | TBar => Some 4 | TCaret => Some 5 | TAmp => Some 6
  | TPlus | TMinus => Some 7
  | TStar | TSlash | TDSlash | TPercent => Some 8
  | TDStar => Some 10
  | TLP => Some 11
  | _ => None
  end%nat.
Definition stop (lvl : nat) (r : list tok) : bool :=
  match r with
  | [] => true
  | t :: _ => match oplevel t with None => true | Some l => Nat.ltb l lvl end
  end.

Lemma stop_mono j k r : (j <= k)%nat -> stop j r = true -> stop k r = true.
Proof.
  destruct r as [|t r]; [reflexivity|]. simpl. destruct (oplevel t); [|reflexivity].
  rewrite !Nat.ltb_lt. lia.
Qed.

Lemma stop_binop lvl r : stop lvl r = true ->
  match r with t :: _ => binop_at lvl t = None | [] => True end.
Proof.
  destruct r as [|t r]; [trivial|]. simpl. intros H.
  destruct (binop_at lvl t) eqn:He; [|reflexivity]. exfalso.
  do 9 (destruct lvl as [|lvl]; [destruct t; simpl in *; discriminate|]).
  simpl in He. discriminate.
Qed.

Lemma lok_stop lvl acc r : stop lvl r = true -> lok lvl acc r acc r.
Proof.
  intros H. split; [lia|]. intros fuel Hf. destruct fuel as [|f]; [lia|].
  apply stop_binop in H. destruct r as [|t r]; [reflexivity|]. cbn [parse_loop]. now rewrite H.
Qed.

Lemma lok_step lvl acc t mk ts a r b r' :
  binop_at lvl t = Some mk -> pok (S lvl) ts a r -> lok lvl (mk acc a) r b r' ->
  lok lvl acc (t :: ts) b r'.
Proof.
  intros Hmk [Hl1 Hp] [Hl2 Hl]. split; [simpl; lia|]. intros fuel Hf. simpl length in Hf.
  destruct fuel as [|f]; [lia|]. cbn [parse_loop]. rewrite Hmk.
  rewrite Hp by lia. apply Hl. lia.
Qed.

Lemma parse_bin f lvl ts : binlvl lvl = true ->
  parse (S f) lvl ts =
  match parse f (S lvl) ts with
  | Some (a, r) => parse_loop f lvl a r
  | None => None
  end.
Proof. do 9 (destruct lvl as [|lvl]; [try discriminate; reflexivity|]). discriminate. Qed.

Lemma pok_bin lvl ts a r b r' :
  binlvl lvl = true -> pok (S lvl) ts a r -> lok lvl a r b r' -> pok lvl ts b r'.
Proof.
  intros Hb [Hl1 Hp] [Hl2 Hl]. split; [lia|]. intros fuel Hf.
  assert (Hlv : (lvl <= 8)%nat).
  { do 9 (destruct lvl as [|lvl]; [lia|]). discriminate. }
  destruct fuel as [|f]; [lia|]. rewrite parse_bin by assumption.
  rewrite Hp by lia. apply Hl. lia.
Qed.

Lemma pok_not ts a r : pok 2 ts a r -> pok 2 (TNot :: ts) (ANot a) r.
Proof.
  intros [Hl Hp]. split; [simpl; lia|]. intros fuel Hf. simpl length in Hf.
  destruct fuel as [|f]; [lia|]. cbn [parse]. rewrite Hp by lia. reflexivity.
Qed.

Lemma pok_cmp ts a t c ts' b r :
  cmp_tok t = Some c -> pok 4 ts a (t :: ts') -> pok 4 ts' b r -> stop 3 r = true ->
  pok 3 ts (ACmp a [(c, b)]) r.
Proof.
  intros Hc [Hl1 Hp1] [Hl2 Hp2] Hs. simpl length in Hl1, Hp1. split; [lia|]. intros fuel Hf.
  destruct fuel as [|f]; [lia|]. cbn [parse]. rewrite Hp1 by lia.
  destruct f as [|f]; [lia|]. cbn [parse_cmps]. rewrite Hc. rewrite Hp2 by lia.
  destruct f as [|f]; [lia|]. cbn [parse_cmps].
  destruct r as [|t' r]; [reflexivity|].
  assert (Hn : cmp_tok t' = None).
  { simpl in Hs. destruct t'; simpl in *; try reflexivity; discriminate. }
  now rewrite Hn.
Qed.

Lemma pok_minus ts a r : pok 9 ts a r -> pok 9 (TMinus :: ts) (ANeg a) r.
Proof.
  intros [Hl Hp]. split; [simpl; lia|]. intros fuel Hf. simpl length in Hf.
  destruct fuel as [|f]; [lia|]. cbn [parse unary_tok]. rewrite Hp by lia. reflexivity.
Qed.

Lemma pok_pow ts a ts' b r :
  pok 11 ts a (TDStar :: ts') -> pok 9 ts' b r -> pok 10 ts (ABin PPow a b) r.
Proof.
  intros [Hl1 Hp1] [Hl2 Hp2]. simpl length in Hl1, Hp1. split; [lia|]. intros fuel Hf.
  destruct fuel as [|f]; [lia|]. cbn [parse]. rewrite Hp1 by lia. rewrite Hp2 by lia. reflexivity.
Qed.

(** Lifting to looser levels *)
Definition hd_ok (j k : nat) (ts : list tok) : Prop :=
  match ts with
  | [] => False
  | t :: _ => ((j <= 2 < k)%nat -> t <> TNot) /\ ((j <= 9 < k)%nat -> unary_tok t = None)
  end.

Lemma pok_lift1 k ts a r : (k <= 10)%nat ->
  pok (S k) ts a r -> stop k r = true -> hd_ok k (S k) ts -> pok k ts a r.
Proof.
  intros Hk Hp Hs Hh.
  destruct (binlvl k) eqn:Hb.
  - eapply pok_bin; [exact Hb|exact Hp|]. now apply lok_stop.
  - destruct Hp as [Hl Hp]. split; [lia|]. intros fuel Hf.
    destruct fuel as [|f]; [lia|].
    destruct k as [|[|[|[|[|[|[|[|[|[|[|k]]]]]]]]]]]; try discriminate; try lia.
    + (* 2 *) cbn [parse]. destruct ts as [|t ts]; [contradiction|].
      destruct Hh as [Hn _]. specialize (Hn ltac:(lia)).
      assert (Hp' := Hp f ltac:(lia)). destruct t; try assumption. contradiction.
    + (* 3 *) cbn [parse]. rewrite Hp by lia. destruct f as [|f]; [lia|]. cbn [parse_cmps].
      destruct r as [|t r]; [reflexivity|].
      assert (Hn : cmp_tok t = None).
      { simpl in Hs. destruct t; simpl in *; try reflexivity; discriminate. }
      now rewrite Hn.
    + (* 9 *) cbn [parse]. destruct ts as [|t ts]; [contradiction|].
      destruct Hh as [_ Hn]. rewrite (Hn ltac:(lia)). apply Hp. lia.
    + (* 10 *) cbn [parse]. rewrite Hp by lia. destruct r as [|t r]; [reflexivity|].
      simpl in Hs. destruct t; try reflexivity. discriminate.
Qed.

Lemma hd_ok_narrow j k j' k' ts : (j <= j')%nat -> (k' <= k)%nat -> hd_ok j k ts -> hd_ok j' k' ts.
Proof.
  intros Hj Hk. destruct ts as [|t ts]; [trivial|]. simpl. intros [H1 H2].
  split; intros H; [apply H1|apply H2]; lia.
Qed.

Lemma pok_lift k j ts a r : (j <= k <= 11)%nat ->
  pok k ts a r -> stop j r = true -> hd_ok j k ts -> pok j ts a r.
Proof.
  intros Hjk Hp Hs Hh. remember (k - j)%nat as d eqn:Hd.
  revert k Hjk Hp Hh Hd. induction d as [|d IH]; intros k Hjk Hp Hh Hd.
  - replace j with k by lia. assumption.
  - destruct k as [|k]; [lia|]. apply (IH k); [lia| |eapply hd_ok_narrow; [| |exact Hh]; lia|lia].
    apply pok_lift1; [lia|assumption| |eapply hd_ok_narrow; [| |exact Hh]; lia].
    eapply stop_mono; [|exact Hs]. lia.
Qed.

(** Atoms *)
Lemma pok_num n r : pok 11 (TNum n :: r) (ANum n) r.
Proof. split; [simpl; lia|]. intros fuel Hf. destruct fuel; [simpl in Hf; lia|]. reflexivity. Qed.
Lemma pok_name x r : stop 11 r = true -> pok 11 (TId x :: r) (AName x) r.
Proof.
  intros Hs. split; [simpl; lia|]. intros fuel Hf. destruct fuel; [simpl in Hf; lia|].
  cbn [parse]. destruct r as [|t r]; [reflexivity|]. simpl in Hs. destruct t; try reflexivity. discriminate.
Qed.
Lemma pok_paren ts a r : pok 0 ts a (TRP :: r) -> pok 11 (TLP :: ts) a r.
Proof.
  intros [Hl Hp]. simpl length in Hl, Hp. split; [simpl; lia|]. intros fuel Hf. simpl length in Hf.
  destruct fuel as [|f]; [lia|]. cbn [parse]. rewrite Hp by lia. reflexivity.
Qed.
Lemma pok_call x ts a r : pok 0 ts a (TRP :: r) ->
  (match ts with TLB :: _ => False | _ => True end) -> pok 11 (TId x :: TLP :: ts) (ACall x a) r.
Proof.
  intros [Hl Hp] Hlb. simpl length in Hl, Hp. split; [simpl; lia|]. intros fuel Hf. simpl length in Hf.
  destruct fuel as [|f]; [lia|]. cbn [parse].
  assert (Hp' := Hp f ltac:(lia)).
  destruct ts as [|t ts]; [simpl in Hl; lia|].
  destruct t; try contradiction; rewrite Hp'; reflexivity.
Qed.
Lemma pok_calll x ts l r : lsok ts l (TRB :: TRP :: r) -> pok 11 (TId x :: TLP :: TLB :: ts) (ACallL x l) r.
Proof.
  intros [Hl Hp]. simpl length in Hl, Hp. split; [simpl; lia|]. intros fuel Hf. simpl length in Hf.
  destruct fuel as [|f]; [lia|]. cbn [parse]. rewrite Hp by lia. reflexivity.
Qed.

Lemma lsok_one ts a r : pok 0 ts a r -> (match r with TComma :: _ => False | _ => True end) -> lsok ts [a] r.
Proof.
  intros [Hl Hp] Hc. split; [assumption|]. intros fuel Hf. destruct fuel as [|f]; [lia|].
  cbn [parse_list]. rewrite Hp by lia. destruct r as [|t r]; [reflexivity|]. destruct t; try reflexivity. contradiction.
Qed.
Lemma lsok_cons ts a ts' l r : pok 0 ts a (TComma :: ts') -> lsok ts' l r -> lsok ts (a :: l) r.
Proof.
  intros [Hl Hp] [Hl2 Hp2]. simpl length in Hl, Hp. split; [lia|]. intros fuel Hf.
  destruct fuel as [|f]; [lia|]. cbn [parse_list]. rewrite Hp by lia. rewrite Hp2 by lia. reflexivity.
Qed.

(** ** Syntax trees of safe expressions *)

Definition num_ast (z : Z) : ast := if z <? 0 then ANeg (ANum (- z)) else ANum z.

(** [a or b or c] is parsed as [(a or b) or c]. *)
Definition orfold (l : list ast) : ast :=
  match l with [] => ANum 0 | a :: l' => fold_left AOr l' a end.

Definition bin_ast (o : binop) (a b : ast) : ast :=
  match o with
  | OAdd => ABin PAdd a b | OMul => ABin PMul a b | OSub => ABin PSub a b
  | ODiv => ABin PFloorDiv a b | OMod => ABin PMod a b | OPow => ABin PPow a b
  | OEq => ACmp a [(PEq, b)] | ONe => ACmp a [(PNe, b)] | OLt => ACmp a [(PLt, b)]
  | OLe => ACmp a [(PLe, b)] | OGt => ACmp a [(PGt, b)] | OGe => ACmp a [(PGe, b)]
  | OAnd => AAnd a b | OOr => AOr a b
  end.

Definition values_asts (k : acckind) (c : Z) (l : list ast) : list ast :=
  if c =? neutral k then l else num_ast c :: l.

Fixpoint asts (ps : pstore) (e : expr) : list ast :=
  match e with
  | Const z => [num_ast z]
  | Var x => [AName x]
  | Param p _ => [num_ast (ps p)]
  | Neg e1 => [ANeg (orfold (asts ps e1))]
  | Abs e1 => [ACall "abs" (orfold (asts ps e1))]
  | Not e1 => [ANot (orfold (asts ps e1))]
  | Bin OOr l r => asts ps l ++ asts ps r
  | Bin o l r => [bin_ast o (orfold (asts ps l)) (orfold (asts ps r))]
  | Sum es c => [ACallL "sum" (values_asts KSum c (map (fun e => orfold (asts ps e)) es))]
  | Prod es c => [ACallL "prod" (values_asts KProd c (map (fun e => orfold (asts ps e)) es))]
  end.
Definition ast_of (ps : pstore) (e : expr) : ast := orfold (asts ps e).

Lemma asts_nonempty ps e : exists a l, asts ps e = a :: l.
Proof.
  induction e as [z|y|p y|e IH|e IH|e IH|o l r IHl IHr|es c IH|es c IH] using expr_ind';
    try (simpl; eauto; fail).
  destruct o; try (simpl; eauto; fail). destruct IHl as (a & l' & Hl). simpl. rewrite Hl. simpl. eauto.
Qed.

Lemma orfold_app l1 l2 : l1 <> [] -> orfold (l1 ++ l2) = fold_left AOr l2 (orfold l1).
Proof. destruct l1 as [|a l1]; [contradiction|]. intros _. simpl. now rewrite fold_left_app. Qed.

Lemma pok_int z r : pok 9 (num_toks z ++ r) (num_ast z) r \/ stop 9 r = false.
Proof.
  destruct (stop 9 r) eqn:Hs; [left|right; reflexivity]. unfold num_toks, num_ast.
  assert (Hnum : forall n, pok 9 (TNum n :: r) (ANum n) r).
  { intros n. apply (pok_lift 11 9); [lia|apply pok_num|assumption|]. simpl. split; [lia|reflexivity]. }
  destruct (z <? 0); simpl; [apply pok_minus|]; apply Hnum.
Qed.

(** First token of the text. *)
Definition first_ok (e : expr) (ts : list tok) : Prop :=
  match ts with
  | [] => False
  | t :: _ => t <> TLB /\ ((3 <= tightness e)%nat -> t <> TNot)
              /\ ((10 <= tightness e)%nat -> unary_tok t = None)
  end.

Lemma first_ok_app e ts r : first_ok e ts -> first_ok e (ts ++ r).
Proof. destruct ts as [|t ts]; simpl; tauto. Qed.

Lemma num_toks_first z e : first_ok e (num_toks z) \/ (10 <= tightness e)%nat.
Proof.
  destruct (Nat.leb_spec 10 (tightness e)); [right; assumption|left]. unfold num_toks.
  destruct (z <? 0); simpl; repeat split; try discriminate; lia.
Qed.

Lemma toks_first ps e : first_ok e (toks ps e).
Proof.
  induction e as [z|y|p y|e IH|e IH|e IH|o l r IHl IHr|es c IH|es c IH] using expr_ind'; cbn [toks].
  - unfold num_toks. simpl. destruct (z <? 0) eqn:Hz; simpl; rewrite ?Hz; repeat split; try discriminate; lia.
  - simpl. repeat split; discriminate.
  - destruct (num_toks_first (ps p) (Param p y)) as [H|H]; [assumption|simpl in H; lia].
  - simpl. repeat split; try discriminate; lia.
  - simpl. repeat split; discriminate.
  - simpl. repeat split; try discriminate; lia.
  - destruct o; try (simpl; repeat split; discriminate).
    destruct (toks ps l) as [|t ts]; [contradiction|]. simpl in *.
    destruct IHl as (H1 & _ & _). repeat split; try assumption; lia.
  - simpl. repeat split; discriminate.
  - simpl. repeat split; discriminate.
Qed.

Lemma first_hd_ok e ts j : (j <= tightness e)%nat -> first_ok e ts -> hd_ok j (tightness e) ts.
Proof.
  destruct ts as [|t ts]; [trivial|]. simpl. intros Hj (_ & H1 & H2). split; intros H; auto.
  - apply H1. lia.
  - apply H2. lia.
Qed.

(** The parsing statement, in three forms: at the expression's own level; as the
    operand of a trailing [or]; as the beginning of an [or] chain. *)
Definition parses (ps : pstore) (e : expr) : Prop :=
  (forall r, (2 <= tightness e)%nat -> stop (tightness e) r = true ->
     pok (tightness e) (toks ps e ++ r) (ast_of ps e) r) /\
  (forall acc r b r', stop 1 r = true -> lok 0 (fold_left AOr (asts ps e) acc) r b r' ->
     lok 0 acc (TOr :: toks ps e ++ r) b r') /\
  (forall r b r', stop 1 r = true -> lok 0 (ast_of ps e) r b r' ->
     pok 0 (toks ps e ++ r) b r').

Lemma tightness_le e : (tightness e <= 11)%nat.
Proof. destruct e; simpl; try lia; [destruct (z <? 0); lia|destruct o; lia]. Qed.

(** For everything but [or] the first form suffices. *)
Lemma parses_tight ps e a :
  asts ps e = [a] -> (2 <= tightness e)%nat ->
  (forall r, stop (tightness e) r = true -> pok (tightness e) (toks ps e ++ r) a r) ->
  parses ps e.
Proof.
  intros Ha Ht Hp. pose proof (tightness_le e) as Hle.
  assert (H1 : forall r, stop 1 r = true -> pok 1 (toks ps e ++ r) a r).
  { intros r Hs. apply (pok_lift (tightness e)); [lia| |assumption|].
    - apply Hp. eapply stop_mono; [|exact Hs]. lia.
    - apply first_hd_ok; [lia|]. apply first_ok_app, toks_first. }
  unfold parses, ast_of. rewrite Ha. simpl. split; [|split].
  - intros. now apply Hp.
  - intros acc r b r' Hs Hl. eapply lok_step; [reflexivity|apply H1; exact Hs|exact Hl].
  - intros r b r' Hs Hl. eapply (pok_bin 0); [reflexivity|apply H1; exact Hs|exact Hl].
Qed.

(** In a delimited position. *)
Lemma parses_delim ps e r : parses ps e -> stop 0 r = true -> pok 0 (toks ps e ++ r) (ast_of ps e) r.
Proof.
  intros (_ & _ & H) Hs. apply H.
  - eapply stop_mono; [|exact Hs]. lia.
  - now apply lok_stop.
Qed.

(** As an operand. *)
Lemma parses_at ps e j r : parses ps e -> (2 <= j)%nat -> (j <= tightness e)%nat -> stop j r = true ->
  pok j (toks ps e ++ r) (ast_of ps e) r.
Proof.
  intros (H & _ & _) H2 Hj Hs. pose proof (tightness_le e).
  apply (pok_lift (tightness e)); [lia| |assumption|].
  - apply H; [lia|]. eapply stop_mono; [|exact Hs]. lia.
  - apply first_hd_ok; [lia|]. apply first_ok_app, toks_first.
Qed.

(** Value lists *)
Lemma parse_values tss l r :
  Forall2 (fun ts a => forall r, stop 0 r = true -> pok 0 (ts ++ r) a r) tss l ->
  tss <> [] -> stop 0 r = true -> (match r with TComma :: _ => False | _ => True end) ->
  lsok (tjoin tss ++ r) l r.
Proof.
  induction 1 as [|ts a tss l Ht Hr IH]; intros Hne Hs Hc; [contradiction|].
  destruct Hr as [|ts2 a2 tss l Ht2 Hr].
  - simpl. apply lsok_one; [auto|assumption].
  - cbn [tjoin]. rewrite <- app_assoc. eapply lsok_cons.
    + apply Ht. reflexivity.
    + apply IH; [discriminate|assumption|assumption].
Qed.

Lemma pok_int0 z r : stop 0 r = true -> pok 0 (num_toks z ++ r) (num_ast z) r.
Proof.
  intros Hs. apply (pok_lift 9); [lia| |assumption|].
  - destruct (pok_int z r) as [H|H]; [assumption|].
    rewrite (stop_mono 0 9) in H; [discriminate|lia|assumption].
  - unfold num_toks. destruct (z <? 0); simpl; split; intros; try discriminate; lia.
Qed.

Lemma Forall2_values ps k c es :
  (forall e, In e es -> parses ps e) ->
  Forall2 (fun ts a => forall r, stop 0 r = true -> pok 0 (ts ++ r) a r)
    (values_toks k c (map (toks ps) es)) (values_asts k c (map (fun e => orfold (asts ps e)) es)).
Proof.
  intros H. unfold values_toks, values_asts.
  assert (Hm : Forall2 (fun ts a => forall r, stop 0 r = true -> pok 0 (ts ++ r) a r)
    (map (toks ps) es) (map (fun e => orfold (asts ps e)) es)).
  { apply Forall2_map. intros e He r Hs. apply parses_delim; auto. }
  destruct (c =? neutral k); [assumption|]. constructor; [|assumption].
  intros r Hs. now apply pok_int0.
Qed.

Lemma safe_parses ps e : safe e = true -> parses ps e.
Proof.
  induction e as [z|y|p y|e IH|e IH|e IH|o l r IHl IHr|es c IH|es c IH] using expr_ind'; intros H.
  - (* Const *)
    apply (parses_tight ps _ (num_ast z)); [reflexivity|simpl; destruct (z <? 0); lia|].
    intros r. simpl. unfold num_toks, num_ast. destruct (z <? 0) eqn:Hz; intros Hs; simpl.
    + destruct (pok_int z r) as [H'|H']; [|congruence].
      unfold num_toks, num_ast in H'. rewrite Hz in H'. exact H'.
    + apply pok_num.
  - (* Var *)
    apply (parses_tight ps _ (AName y)); [reflexivity|simpl; lia|].
    intros r Hs. simpl. now apply pok_name.
  - (* Param *)
    apply (parses_tight ps _ (num_ast (ps p))); [reflexivity|simpl; lia|].
    intros r Hs. simpl in *. destruct (pok_int (ps p) r) as [H'|H']; [assumption|congruence].
  - (* Neg *)
    simpl in H. apply andb_true_iff in H. destruct H as [_ H].
    apply (parses_tight ps _ (ANeg (ast_of ps e))); [reflexivity|simpl; lia|].
    intros r Hs. cbn [toks app]. apply pok_minus.
    apply (pok_lift 11); [simpl; lia| |exact Hs|simpl; split; [lia|reflexivity]].
    apply pok_paren. rewrite <- app_assoc. apply parses_delim; [auto|reflexivity].
  - (* Abs *)
    simpl in H. apply andb_true_iff in H. destruct H as [_ H].
    apply (parses_tight ps _ (ACall "abs" (ast_of ps e))); [reflexivity|simpl; lia|].
    intros r Hs. cbn [toks app tightness]. apply pok_call.
    + rewrite <- app_assoc. apply parses_delim; [auto|reflexivity].
    + pose proof (toks_first ps e) as Hf. destruct (toks ps e) as [|t ts]; [contradiction|].
      simpl in *. destruct Hf as [Hf _]. destruct t; try exact I. contradiction.
  - (* Not *)
    cbn [safe] in H. apply andb_true_iff in H. destruct H as [Ht H]. apply Nat.leb_le in Ht.
    apply (parses_tight ps _ (ANot (ast_of ps e))); [reflexivity|simpl; lia|].
    intros r Hs. cbn [toks app tightness]. apply pok_not.
    apply parses_at; [auto|lia|assumption|exact Hs].
  - (* Bin *)
    cbn [safe] in H. rewrite !andb_true_iff in H. destruct H as [[[Hnl Hnr] Hsl] Hsr].
    apply Nat.leb_le in Hnl, Hnr. specialize (IHl Hsl). specialize (IHr Hsr).
    assert (Hbin : o <> OOr ->
      (forall r', pok 0 (toks ps l ++ op_tok o :: toks ps r ++ TRP :: r')
                    (bin_ast o (ast_of ps l) (ast_of ps r)) (TRP :: r')) ->
      parses ps (Bin o l r)).
    { intros Ho Hp. apply (parses_tight ps _ (bin_ast o (ast_of ps l) (ast_of ps r))).
      - destruct o; try reflexivity. contradiction.
      - destruct o; simpl; try lia. contradiction.
      - intros r' Hs. assert (Htk : toks ps (Bin o l r) = TLP :: toks ps l ++ op_tok o :: toks ps r ++ [TRP]).
        { destruct o; try reflexivity. contradiction. }
        assert (Htt : tightness (Bin o l r) = 11%nat).
        { destruct o; try reflexivity. contradiction. }
        rewrite Htk, Htt. cbn [app]. apply pok_paren.
        rewrite <- app_assoc. cbn [app]. rewrite <- app_assoc. cbn [app]. apply Hp. }
    assert (Hhd : forall j k rest, (j <= k)%nat -> (k <= tightness l)%nat -> hd_ok j k (toks ps l ++ rest)).
    { intros j k rest Hjk Hk. eapply hd_ok_narrow; [apply Nat.le_refl|exact Hk|].
      apply first_hd_ok; [lia|]. apply first_ok_app, toks_first. }
    assert (Harith : forall lvl mk, binlvl lvl = true -> (4 <= lvl)%nat -> (lvl <= 8)%nat ->
       binop_at lvl (op_tok o) = Some mk -> oplevel (op_tok o) = Some lvl ->
       (9 <= tightness l)%nat -> (9 <= tightness r)%nat ->
       bin_ast o (ast_of ps l) (ast_of ps r) = mk (ast_of ps l) (ast_of ps r) ->
       forall r', pok 0 (toks ps l ++ op_tok o :: toks ps r ++ TRP :: r')
                    (bin_ast o (ast_of ps l) (ast_of ps r)) (TRP :: r')).
    { intros lvl mk Hb H4 H8 Hmk Hol Htl Htr Hast r'. rewrite Hast.
      apply (pok_lift lvl); [lia| |reflexivity|apply Hhd; lia].
      eapply pok_bin; [exact Hb| |].
      - apply parses_at; [exact IHl|lia|lia|]. simpl. rewrite Hol. apply Nat.ltb_lt. lia.
      - eapply lok_step; [exact Hmk| |].
        + apply parses_at; [exact IHr|lia|lia|]. reflexivity.
        + now apply lok_stop. }
    assert (Hcmp : forall c, cmp_tok (op_tok o) = Some c -> oplevel (op_tok o) = Some 3%nat ->
       (9 <= tightness l)%nat -> (9 <= tightness r)%nat ->
       bin_ast o (ast_of ps l) (ast_of ps r) = ACmp (ast_of ps l) [(c, ast_of ps r)] ->
       forall r', pok 0 (toks ps l ++ op_tok o :: toks ps r ++ TRP :: r')
                    (bin_ast o (ast_of ps l) (ast_of ps r)) (TRP :: r')).
    { intros c Hc Hol Htl Htr Hast r'. rewrite Hast.
      apply (pok_lift 3); [lia| |reflexivity|apply Hhd; lia].
      eapply pok_cmp; [exact Hc| | |reflexivity].
      - apply parses_at; [exact IHl|lia|lia|]. simpl. rewrite Hol. reflexivity.
      - apply parses_at; [exact IHr|lia|lia|]. reflexivity. }
    destruct o; simpl in Hnl, Hnr;
      try (apply Hbin; [discriminate|]; eapply (Harith 7%nat); [reflexivity|lia|lia|reflexivity|reflexivity|lia|lia|reflexivity]);
      try (apply Hbin; [discriminate|]; eapply (Harith 8%nat); [reflexivity|lia|lia|reflexivity|reflexivity|lia|lia|reflexivity]);
      try (apply Hbin; [discriminate|]; eapply Hcmp; [reflexivity|reflexivity|lia|lia|reflexivity]).
    + (* Pow *)
      apply Hbin; [discriminate|]. intros r'.
      apply (pok_lift 10); [lia| |reflexivity|].
      * eapply pok_pow.
        -- apply parses_at; [exact IHl|lia|lia|]. reflexivity.
        -- apply parses_at; [exact IHr|lia|lia|]. reflexivity.
      * apply Hhd; lia.
    + (* And *)
      apply Hbin; [discriminate|]. intros r'.
      apply (pok_lift 1); [lia| |reflexivity|].
      * eapply pok_bin; [reflexivity| |].
        -- apply parses_at; [exact IHl|lia|lia|]. reflexivity.
        -- eapply lok_step; [reflexivity| |].
           ++ apply parses_at; [exact IHr|lia|lia|]. reflexivity.
           ++ now apply lok_stop.
      * eapply hd_ok_narrow; [apply Nat.le_refl| |apply (Hhd 0%nat 2%nat)]; lia.
    + (* Or *)
      assert (Hne : asts ps l <> []).
      { destruct (asts_nonempty ps l) as (a & l' & Ha). rewrite Ha. discriminate. }
      destruct IHl as (_ & Bl & Cl). destruct IHr as (_ & Br & Cr).
      split; [simpl; lia|]. split.
      * intros acc r0 b r' Hs Hl. cbn [toks]. rewrite <- app_assoc. cbn [app].
        apply Bl; [reflexivity|]. apply Br; [assumption|].
        simpl in Hl. now rewrite fold_left_app in Hl.
      * intros r0 b r' Hs Hl. cbn [toks]. rewrite <- app_assoc. cbn [app].
        apply Cl; [reflexivity|]. apply Br; [assumption|].
        unfold ast_of in Hl. simpl in Hl. now rewrite orfold_app in Hl.
  - (* Sum *)
    cbn [safe] in H. apply andb_true_iff in H. destruct H as [H3 H].
    rewrite forallb_forall in H. rewrite Forall_forall in IH.
    apply (parses_tight ps _ (ACallL "sum" (values_asts KSum c (map (fun e => orfold (asts ps e)) es))));
      [reflexivity|simpl; lia|].
    intros r Hs. cbn [toks app tightness]. apply pok_calll. rewrite <- app_assoc. cbn [app].
    apply parse_values; [|  |reflexivity|exact I].
    + apply Forall2_values. auto.
    + unfold three_values in H3. apply Nat.leb_le in H3. unfold values_toks.
      destruct (c =? neutral KSum); [|discriminate]. destruct es; [simpl in H3; lia|discriminate].
  - (* Prod *)
    cbn [safe] in H. apply andb_true_iff in H. destruct H as [H3 H].
    rewrite forallb_forall in H. rewrite Forall_forall in IH.
    apply (parses_tight ps _ (ACallL "prod" (values_asts KProd c (map (fun e => orfold (asts ps e)) es))));
      [reflexivity|simpl; lia|].
    intros r Hs. cbn [toks app tightness]. apply pok_calll. rewrite <- app_assoc. cbn [app].
    apply parse_values; [|  |reflexivity|exact I].
    + apply Forall2_values. auto.
    + unfold three_values in H3. apply Nat.leb_le in H3. unfold values_toks.
      destruct (c =? neutral KProd); [|discriminate]. destruct es; [simpl in H3; lia|discriminate].
Qed.
