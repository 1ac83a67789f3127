(** Facts: command lines, their settings and [main]. *)
From Verif Require Import DemoMain SpecMain ArgFacts.
From Coq Require Import Lia.
Open Scope list_scope.
Open Scope Z_scope.

(** ** From words to options *)
Definition entry_of (t : list optdef) (w : word) : option (list optdef * optdef * option string) :=
  match w with
  | WOpt (Some o) os None => Some ([], o, None)
  | WOpt (Some o) os (Some e) => flags t o os e
  | _ => None
  end.
Fixpoint items (fuel : nat) (t : list optdef) (l : list (string * word)) : option (list given) :=
  match fuel with
  | O => None
  | S fuel' =>
      match l with
      | [] => Some []
      | (s, WArg) :: l' => option_map (cons (GSource s)) (items fuel' t l')
      | (_, w) :: l' =>
          match entry_of t w with
          | None => None
          | Some (fs, x, Some v) => option_map (app (map flag fs ++ [GOpt x [v]])) (items fuel' t l')
          | Some (fs, x, None) =>
              match option_args x l' with
              | None => None
              | Some (vs, rest) => option_map (app (map flag fs ++ [GOpt x vs])) (items fuel' t rest)
              end
          end
      end
  end.

Lemma consume_entry t o os e l : consume_optional t o os e l =
  match entry_of t (WOpt (Some o) os e) with
  | None => None
  | Some (fs, x, Some v) => Some (map bare fs ++ [(x, [v])], l)
  | Some (fs, x, None) => match option_args x l with Some (vs, rest) => Some (map bare fs ++ [(x, vs)], rest) | None => None end
  end.
Proof.
  unfold consume_optional, entry_of. destruct e as [e|].
  - rewrite cluster_flags. destruct (flags t o os e) as [[[fs x] [v|]]|]; reflexivity.
  - destruct (option_args o l) as [[vs rest]|]; reflexivity.
Qed.

Lemma classify_all_cons t s l ws : classify_all t (s :: l) = Some ws <->
  exists w ws', classify t s = Some w /\ classify_all t l = Some ws' /\ ws = (s, w) :: ws'.
Proof.
  cbn. destruct (classify t s) as [w|]; [|split; [discriminate|intros (w & ws' & H & _); discriminate H]].
  destruct (classify_all t l) as [ws'|]; [|split; [discriminate|intros (w' & ws' & _ & H & _); discriminate H]].
  split; [intros [= <-]; eauto|]. intros (w1 & ws1 & [= <-] & [= <-] & ->). reflexivity.
Qed.
Lemma classify_all_app t l1 l2 : classify_all t (l1 ++ l2) =
  match classify_all t l1, classify_all t l2 with Some a, Some b => Some (a ++ b) | _, _ => None end.
Proof.
  induction l1 as [|s l1 IH]; cbn; [destruct (classify_all t l2); reflexivity|].
  destruct (classify t s) as [w|]; [|reflexivity]. rewrite IH.
  destruct (classify_all t l1), (classify_all t l2); reflexivity.
Qed.
Definition arg (s : string) : string * word := (s, WArg).
Lemma classify_args t vs : wf t -> Forall (value t) vs <-> classify_all t vs = Some (map arg vs).
Proof.
  intro W. induction vs as [|v vs IH]; [split; [reflexivity|constructor]|]. cbn. split.
  - intro F. inversion F as [|? ? V F']; subst. apply (value_iff t v W) in V. apply IH in F'. now rewrite V, F'.
  - destruct (classify t v) as [w|] eqn:E; [|discriminate]. destruct (classify_all t vs) as [ws|] eqn:E'; [|discriminate].
    intros [= -> ->]. constructor; [now apply value_iff|now apply IH].
Qed.
Lemma span_app vs l : span_args (map arg vs ++ l) = (vs ++ fst (span_args l), snd (span_args l)).
Proof. induction vs as [|v vs IH]; cbn; [destruct (span_args l); reflexivity|]. fold arg. rewrite IH. reflexivity. Qed.
Definition not_arg (l : list (string * word)) : Prop := match l with (_, WArg) :: _ => False | _ => True end.
Lemma span_not l : not_arg l -> span_args l = ([], l).
Proof. destruct l as [|[s [|]] l]; [reflexivity|intros []|reflexivity]. Qed.
Lemma span_split l : exists vs rest, span_args l = (vs, rest) /\ l = map arg vs ++ rest /\ not_arg rest.
Proof.
  induction l as [|[s w] l (vs & rest & E & -> & N)]; [exists [], []; repeat split|].
  destruct w as [|o os e]; [|exists [], ((s, WOpt o os e) :: map arg vs ++ rest); repeat split].
  cbn. rewrite E. exists (s :: vs), rest. repeat split. exact N.
Qed.
Lemma no_value_iff t argv ws : wf t -> classify_all t argv = Some ws -> no_value_next t argv <-> not_arg ws.
Proof.
  intros W C. destruct argv as [|s argv].
  - injection C as <-. split; [constructor|]. intros _ w ws' H. discriminate H.
  - apply classify_all_cons in C. destruct C as (w & ws' & E & _ & ->). unfold no_value_next. split.
    + intro H. destruct w; [|exact I]. exfalso. apply (H s argv eq_refl). now apply value_iff.
    + intros N x l [= <- <-] V. apply (value_iff t s W) in V. rewrite V in E. injection E as <-. exact N.
Qed.
Lemma classify_all_split t argv a b : classify_all t argv = Some (a ++ b) -> exists l1 l2, argv = l1 ++ l2 /\ classify_all t l1 = Some a /\ classify_all t l2 = Some b.
Proof.
  revert argv. induction a as [|[s w] a IH]; intros argv H.
  - exists [], argv. repeat split. exact H.
  - destruct argv as [|s' argv]; [discriminate H|]. apply classify_all_cons in H. destruct H as (w' & ws' & E & C & K). injection K as -> -> <-.
    destruct (IH argv C) as (l1 & l2 & -> & C1 & C2). exists (s' :: l1), l2. repeat split; [|exact C2]. cbn. now rewrite E, C1.
Qed.
Lemma classify_map t l vs : classify_all t l = Some (map arg vs) -> l = vs.
Proof.
  revert vs. induction l as [|s l IH]; intros vs H.
  - injection H as H. destruct vs; [reflexivity|discriminate H].
  - apply classify_all_cons in H. destruct H as (w & ws' & E & C & K). destruct vs as [|v vs]; [discriminate K|]. injection K as -> <- K. f_equal. apply IH. now rewrite K.
Qed.
Lemma option_args_iff t x argv ws vs rest : wf t -> classify_all t argv = Some ws ->
  option_args x ws = Some (vs, rest) <->
  exists argv', argv = vs ++ argv' /\ classify_all t argv' = Some rest /\ Forall (value t) vs /\ fits t x vs argv'.
Proof.
  intros W C.
  assert (K : forall l1 l2, ws = map arg l1 ++ l2 -> exists argv', argv = l1 ++ argv' /\ classify_all t argv' = Some l2 /\ Forall (value t) l1).
  { intros l1 l2 E. rewrite E in C. destruct (classify_all_split t argv _ _ C) as (a & b & -> & A & B). pose proof (classify_map t a l1 A) as ->.
    exists b. repeat split; [exact B|]. now apply (classify_args t l1 W). }
  assert (K' : forall argv', argv = vs ++ argv' -> classify_all t argv' = Some rest -> Forall (value t) vs -> ws = map arg vs ++ rest).
  { intros argv' E R F. rewrite E, classify_all_app, R in C. apply (classify_args t vs W) in F. rewrite F in C. now injection C as <-. }
  unfold option_args, fits. destruct (o_nargs x) eqn:N.
  - split.
    + destruct ws as [|[s [|]] ws]; try discriminate. intros [= <- <-]. destruct (K [s] ws eq_refl) as (a & A & B & F). exists a. auto.
    + intros (a & A & B & F & L). rewrite (K' a A B F). destruct vs as [|v [|]]; try discriminate L. reflexivity.
  - split.
    + destruct ws as [|[s [|]] ws].
      * intros [= <- <-]. destruct (K [] [] eq_refl) as (a & A & B & F). exists a. repeat split; try assumption. right. split; [reflexivity|]. now apply (no_value_iff t a [] W B).
      * intros [= <- <-]. destruct (K [s] ws eq_refl) as (a & A & B & F). exists a. auto.
      * intros [= <- <-]. destruct (K [] _ eq_refl) as (a & A & B & F). exists a. repeat split; try assumption. right. split; [reflexivity|]. now apply (no_value_iff t a _ W B).
    + intros (a & A & B & F & [L|[-> L]]); rewrite (K' a A B F).
      * destruct vs as [|v [|]]; try discriminate L. reflexivity.
      * apply (no_value_iff t a rest W B) in L. destruct rest as [|[s [|]] rest]; try reflexivity. destruct L.
  - split.
    + destruct (span_split ws) as (l1 & l2 & -> & E & M). destruct l1 as [|v l1]; [discriminate|]. intros [= <- <-].
      destruct (K _ _ E) as (a & A & B & F). exists a. repeat split; try assumption; [discriminate|]. now apply (no_value_iff t a l2 W B).
    + intros (a & A & B & F & V & L). rewrite (K' a A B F). apply (no_value_iff t a rest W B) in L.
      rewrite span_app, (span_not rest L). cbn [fst snd]. rewrite app_nil_r. destruct vs as [|v vs]; [contradiction|reflexivity].
  - split.
    + intros [= <- <-]. destruct (K [] ws eq_refl) as (a & A & B & F). exists a. auto.
    + intros (a & A & B & F & ->). now rewrite (K' a A B F).
Qed.
Lemma classify_length t argv ws : classify_all t argv = Some ws -> List.length ws = List.length argv.
Proof.
  revert ws. induction argv as [|s argv IH]; intros ws H; [injection H as <-; reflexivity|].
  apply classify_all_cons in H. destruct H as (w & ws' & _ & C & ->). cbn. f_equal. now apply IH.
Qed.
Lemma entry_word t s w r : classify t s = Some w -> entry t s = Some r <-> entry_of t w = Some r.
Proof. intro E. unfold entry. rewrite E. reflexivity. Qed.

Lemma line_items t gs argv : wf t -> line t gs argv ->
  exists ws, classify_all t argv = Some ws /\ forall fuel, (List.length ws < fuel)%nat -> items fuel t ws = Some gs.
Proof.
  intros W L. induction L as [|w fs o v gs argv G L (ws & C & IH)|w fs o vs gs argv G V F L (ws & C & IH)|s gs argv V L (ws & C & IH)].
  - exists []. split; [reflexivity|]. intros [|fuel] H; [inversion H|reflexivity].
  - apply (entry_iff t w fs o _ W) in G. destruct (classify t w) as [x|] eqn:E; [|unfold entry in G; rewrite E in G; discriminate G].
    apply (entry_word t w x _ E) in G. exists ((w, x) :: ws). split; [apply classify_all_cons; eauto|].
    intros [|fuel] H; [inversion H|]. cbn in H. destruct x as [|x os e]; [discriminate G|].
    cbn [items]. rewrite G, IH by lia. cbn [option_map]. now rewrite <- app_assoc.
  - apply (entry_iff t w fs o _ W) in G. destruct (classify t w) as [x|] eqn:E; [|unfold entry in G; rewrite E in G; discriminate G].
    apply (entry_word t w x _ E) in G. exists ((w, x) :: map arg vs ++ ws).
    assert (C' : classify_all t (vs ++ argv) = Some (map arg vs ++ ws)) by (rewrite classify_all_app, C, (proj1 (classify_args t vs W) V); reflexivity).
    split; [apply classify_all_cons; eauto|].
    intros [|fuel] H; [inversion H|]. cbn in H. rewrite app_length in H. destruct x as [|x os e]; [discriminate G|].
    cbn [items]. rewrite G.
    rewrite (proj2 (option_args_iff t o (vs ++ argv) _ vs ws W C')) by (exists argv; auto).
    rewrite IH by lia. cbn [option_map]. now rewrite <- app_assoc.
  - exists ((s, WArg) :: ws). split; [apply classify_all_cons; exists WArg, ws; repeat split; [now apply value_iff|exact C]|].
    intros [|fuel] H; [inversion H|]. cbn in H. cbn [items]. rewrite IH by lia. reflexivity.
Qed.
Lemma items_line t fuel : wf t -> forall argv ws gs, classify_all t argv = Some ws -> items fuel t ws = Some gs -> line t gs argv.
Proof.
  intro W. induction fuel as [|fuel IH]; intros argv ws gs C H; [discriminate H|].
  destruct argv as [|s argv]; [injection C as <-; injection H as <-; constructor|].
  apply classify_all_cons in C. destruct C as (w & ws' & E & C & ->). cbn [items] in H.
  destruct w as [|x os e].
  - destruct (items fuel t ws') as [gs'|] eqn:I; [|discriminate H]. injection H as <-. constructor; [now apply value_iff|]. now apply (IH argv ws').
  - destruct (entry_of t (WOpt x os e)) as [[[fs o] [v|]]|] eqn:G; [| |discriminate H]; apply (entry_word t s _ _ E), (entry_iff t s fs o _ W) in G.
    + destruct (items fuel t ws') as [gs'|] eqn:I; [|discriminate H]. injection H as <-. rewrite <- app_assoc. apply line_word; [exact G|]. now apply (IH argv ws').
    + destruct (option_args o ws') as [[vs rest]|] eqn:A; [|discriminate H].
      destruct (items fuel t rest) as [gs'|] eqn:I; [|discriminate H]. injection H as <-. rewrite <- app_assoc.
      apply (option_args_iff t o argv ws' vs rest W C) in A. destruct A as (argv' & -> & C' & V & F).
      apply line_next; try assumption. now apply (IH argv' rest).
Qed.
Lemma compute_line t fuel : wf t -> forall argv gs,
  match classify_all t argv with Some ws => items fuel t ws | None => None end = Some gs -> line t gs argv.
Proof. intros W argv gs H. destruct (classify_all t argv) as [ws|] eqn:C; [|discriminate H]. now apply (items_line t fuel W argv ws). Qed.
(** A line can be read in one way only. *)
Lemma line_unique t gs gs' argv : wf t -> line t gs argv -> line t gs' argv -> gs = gs'.
Proof.
  intros W L L'. destruct (line_items t gs argv W L) as (ws & C & I). destruct (line_items t gs' argv W L') as (ws' & C' & I').
  rewrite C in C'. injection C' as <-. specialize (I _ (Nat.lt_succ_diag_r _)). specialize (I' _ (Nat.lt_succ_diag_r _)). congruence.
Qed.

Section Run.
Variables (files : string -> option string) (to_float : string -> res lim).
Notation take_action := (take_action files to_float).
Notation take_actions := (take_actions files to_float).
Notation parse_words := (parse_words files to_float).

Fixpoint process (gs : list given) (source extras : bool) (n : namespace) : parsed (namespace * bool) :=
  match gs with
  | [] => Parsed (n, extras)
  | GSource s :: gs' => if source then process gs' false extras (set_source s n) else process gs' false true n
  | GOpt o vs :: gs' =>
      match take_action o vs n with Parsed n' => process gs' source extras n' | Help => Help | Usage => Usage end
  end.
Lemma process_app a b source extras n : process (a ++ b) source extras n =
  match process a source extras n with
  | Parsed (n', extras') => process b (source && negb (existsb (fun g => match g with GSource _ => true | _ => false end) a)) extras' n'
  | Help => Help | Usage => Usage end.
Proof.
  revert source extras n. induction a as [|[o vs|s] a IH]; intros source extras n; cbn [app process existsb].
  - rewrite andb_true_r. reflexivity.
  - destruct (take_action o vs n) as [| |n']; try reflexivity. apply IH.
  - cbn [orb negb]. rewrite andb_false_r. destruct source; rewrite IH; cbn [andb]; reflexivity.
Qed.
Lemma take_process acts source extras n rest :
  process (map (fun p => GOpt (fst p) (snd p)) acts ++ rest) source extras n =
  match take_actions acts n with Parsed n' => process rest source extras n' | Help => Help | Usage => Usage end.
Proof.
  revert n. induction acts as [|[o vs] acts IH]; intro n; [reflexivity|]. cbn. destruct (take_action o vs n); try reflexivity. apply IH.
Qed.
Lemma acts_given fs x vs : map (fun p : optdef * list string => GOpt (fst p) (snd p)) (map bare fs ++ [(x, vs)]) = map flag fs ++ [GOpt x vs].
Proof. rewrite map_app, map_map. reflexivity. Qed.
Lemma parse_items t fuel : forall l gs source extras n, items fuel t l = Some gs -> parse_words fuel t source extras n l = process gs source extras n.
Proof.
  induction fuel as [|fuel IH]; intros l gs source extras n H; [discriminate H|]. cbn [items DemoMain.parse_words] in *.
  destruct l as [|[s w] l]; [injection H as <-; reflexivity|]. destruct w as [|[o|] os e].
  - destruct (items fuel t l) as [gs'|] eqn:I; [|discriminate H]. injection H as <-. cbn. destruct source; now apply IH.
  - rewrite consume_entry. destruct (entry_of t _) as [[[fs x] [v|]]|]; [| |discriminate H].
    + destruct (items fuel t l) as [gs'|] eqn:I; [|discriminate H]. injection H as <-. rewrite <- acts_given, take_process.
      destruct (take_actions _ n); try reflexivity. now apply IH.
    + destruct (option_args x l) as [[vs rest]|]; [|discriminate H].
      destruct (items fuel t rest) as [gs'|] eqn:I; [|discriminate H]. injection H as <-. rewrite <- acts_given, take_process.
      destruct (take_actions _ n); try reflexivity. now apply IH.
  - discriminate H.
Qed.
Lemma parse_extras t fuel : forall l source n n', parse_words fuel t source true n l <> Parsed (n', false).
Proof.
  induction fuel as [|fuel IH]; intros l source n n'; [discriminate|]. cbn [DemoMain.parse_words].
  destruct l as [|[s w] l]; [congruence|]. destruct w as [|[o|] os e].
  - destruct source; apply IH.
  - destruct (consume_optional t o os e l) as [[acts rest]|]; [|discriminate]. destruct (take_actions acts n); try discriminate. apply IH.
  - apply IH.
Qed.
Lemma parse_none t fuel : forall l source extras n n', items fuel t l = None -> parse_words fuel t source extras n l <> Parsed (n', false).
Proof.
  induction fuel as [|fuel IH]; intros l source extras n n' H; [discriminate|]. cbn [items DemoMain.parse_words] in *.
  destruct l as [|[s w] l]; [discriminate H|]. destruct w as [|[o|] os e].
  - destruct (items fuel t l) as [gs'|] eqn:I; [discriminate H|]. destruct source; now apply IH.
  - rewrite consume_entry. destruct (entry_of t _) as [[[fs x] [v|]]|]; [| |discriminate].
    + destruct (items fuel t l) as [gs'|] eqn:I; [discriminate H|]. destruct (take_actions _ n); try discriminate. now apply IH.
    + destruct (option_args x l) as [[vs rest]|]; [|discriminate].
      destruct (items fuel t rest) as [gs'|] eqn:I; [discriminate H|]. destruct (take_actions _ n); try discriminate. now apply IH.
  - apply parse_extras.
Qed.

(** [parse_known] on a line, and on anything else. *)
Lemma known_line t source argv gs : wf t -> line t gs argv ->
  parse_known files to_float t source argv = process gs source false namespace0.
Proof.
  intros W L. destruct (line_items t gs argv W L) as (ws & C & I). unfold parse_known. rewrite C. apply parse_items, I. lia.
Qed.
Lemma known_parsed t source argv n : wf t -> parse_known files to_float t source argv = Parsed (n, false) ->
  exists gs, line t gs argv /\ process gs source false namespace0 = Parsed (n, false).
Proof.
  intros W H. unfold parse_known in H. destruct (classify_all t argv) as [ws|] eqn:C; [|discriminate H].
  destruct (items (S (List.length ws)) t ws) as [gs|] eqn:I.
  - exists gs. split; [now apply (items_line t (S (List.length ws)) W argv ws)|]. rewrite <- H. symmetry. now apply parse_items.
  - exfalso. now apply (parse_none t _ ws source false namespace0 n I).
Qed.
End Run.

(** ** Settings *)
Definition action_eq_dec (a b : action) : {a = b} + {a <> b}. Proof. decide equality. Defined.
Fixpoint last_of (a : action) (gs : list given) : option (list string) :=
  match gs with
  | [] => None
  | g :: gs' => match last_of a gs' with
      | Some r => Some r
      | None => match g with GOpt o vs => if action_eq_dec (o_action o) a then Some vs else None | _ => None end
      end
  end.
Lemma last_of_none a gs : (forall o vs, In (GOpt o vs) gs -> o_action o <> a) -> last_of a gs = None.
Proof.
  induction gs as [|g gs IH]; intro H; [reflexivity|]. cbn. rewrite IH by (intros o vs I; apply (H o vs); now right).
  destruct g as [o vs|s]; [|reflexivity]. destruct (action_eq_dec (o_action o) a) as [E|]; [|reflexivity]. exfalso. now apply (H o vs (or_introl eq_refl)).
Qed.
Lemma last_given_of a gs r : last_given a gs r -> r = last_of a gs.
Proof.
  intros [gs' H|l o vs gs' E H]; [now rewrite last_of_none|].
  induction l as [|g l IH]; cbn.
  - rewrite last_of_none by exact H. now destruct (action_eq_dec (o_action o) a).
  - now rewrite <- IH.
Qed.
Lemma last_given_unique a gs r r' : last_given a gs r -> last_given a gs r' -> r = r'.
Proof. intros H H'. apply last_given_of in H, H'. congruence. Qed.

Definition other (a : action) (g : given) : Prop := match g with GOpt o _ => o_action o <> a | GSource _ => True end.
Lemma last_other a gs g r : other a g -> last_given a gs r -> last_given a (gs ++ [g]) r.
Proof.
  intros N [gs' H|l o vs gs' E H].
  - apply last_none. intros o vs I. apply in_app_or in I. destruct I as [I|[->|[]]]; [now apply (H o vs)|exact N].
  - rewrite <- app_assoc. apply last_some; [exact E|]. intros o' vs' I. apply in_app_or in I. destruct I as [I|[->|[]]]; [now apply (H o' vs')|exact N].
Qed.
Lemma last_same a gs o vs : o_action o = a -> last_given a (gs ++ [GOpt o vs]) (Some vs).
Proof. intro E. apply last_some; [exact E|intros ? ? []]. Qed.
Lemma one_other {A} a gs g (d b : A) rd x : other a g -> one_setting a gs d b rd x -> one_setting a (gs ++ [g]) d b rd x.
Proof. intros N (r & H & K). exists r. split; [now apply last_other|exact K]. Qed.
Lemma list_other a gs g d x : other a g -> list_setting a gs d x -> list_setting a (gs ++ [g]) d x.
Proof. intros N (r & H & K). exists r. split; [now apply last_other|exact K]. Qed.
Lemma one_bare {A} a gs o (d b : A) (rd : string -> A -> Prop) : o_action o = a -> one_setting a (gs ++ [GOpt o []]) d b rd b.
Proof. intro E. exists (Some []). split; [now apply last_same|reflexivity]. Qed.
Lemma one_same {A} a gs o v vs (d b : A) (rd : string -> A -> Prop) x : o_action o = a -> rd v x -> one_setting a (gs ++ [GOpt o (v :: vs)]) d b rd x.
Proof. intros E H. exists (Some (v :: vs)). split; [now apply last_same|exact H]. Qed.
Lemma list_same a gs o vs d : o_action o = a -> list_setting a (gs ++ [GOpt o vs]) d vs.
Proof. intro E. exists (Some vs). split; [now apply last_same|reflexivity]. Qed.
Lemma gives_snoc a gs g : gives a (gs ++ [g]) <-> gives a gs \/ ~ other a g.
Proof.
  split.
  - intros (o & vs & I & E). apply in_app_or in I. destruct I as [I|[->|[]]]; [left; now exists o, vs|]. right. intro N. now apply N.
  - intros [(o & vs & I & E)|N].
    + exists o, vs. split; [apply in_or_app; now left|exact E].
    + destruct g as [o vs|s]; [|exfalso; now apply N]. exists o, vs. split; [apply in_or_app; right; now left|].
      destruct (action_eq_dec (o_action o) a) as [E|E]; [exact E|contradiction].
Qed.
Lemma last_gives a gs r : last_given a gs r -> (gives a gs <-> exists vs, r = Some vs).
Proof.
  intros [gs' H|l o vs gs' E H]; split.
  - intros (o & vs & I & E). exfalso. now apply (H o vs).
  - intros [vs X]. discriminate X.
  - eauto.
  - intros _. exists o, vs. split; [apply in_or_app; right; now left|exact E].
Qed.

(** The number of values that belongs to an action. *)
Definition wired (o : optdef) : Prop := o_nargs o =
  match o_action o with
  | AHelp | AShow => Zero | ATimeout | ALimit | AZeros => Optional | AInput | AImage | ABoard => One | ALabels | AColors => Plus end.
Definition arity (o : optdef) (vs : list string) : Prop :=
  match o_nargs o with
  | Zero => vs = [] | One => exists v, vs = [v] | Optional => vs = [] \/ exists v, vs = [v] | Plus => vs <> [] end.
Definition shaped (gs : list given) : Prop := forall o vs, In (GOpt o vs) gs -> wired o /\ arity o vs.
Lemma word_gives_in t w fs o v : word_gives t w fs o v ->
  In o t /\ (forall f, In f fs -> In f t /\ o_nargs f = Zero) /\ (v <> None -> takes_value o).
Proof.
  assert (Z : forall l : list optdef, (forall x, In x l -> In x t /\ ~ takes_value x) -> forall f, In f l -> In f t /\ o_nargs f = Zero).
  { intros l A f I. destruct (A f I) as [J N]. split; [exact J|]. unfold takes_value in N. destruct (o_nargs f); try reflexivity; exfalso; apply N; discriminate. }
  intros [x w' M|x w' s M T|x c s I T N|f fs' eq x A I Q|f fs' eq x c s A I T Q].
  - split; [destruct M; assumption|]. split; [intros f []|congruence].
  - split; [destruct M; assumption|]. split; [intros f []|auto].
  - split; [exact I|]. split; [intros f []|auto].
  - split; [exact I|]. split; [now apply Z|congruence].
  - split; [exact I|]. split; [now apply Z|auto].
Qed.
Lemma line_shaped t gs argv : (forall o, In o t -> wired o) -> line t gs argv -> shaped gs.
Proof.
  intros Wd L. unfold shaped. 
  assert (B : forall fs, (forall f, In f fs -> In f t /\ o_nargs f = Zero) -> forall o vs, In (GOpt o vs) (map flag fs) -> wired o /\ arity o vs).
  { intros fs A o vs I. apply in_map_iff in I. destruct I as (f & E & I). injection E as <- <-. destruct (A f I) as [J Z]. split; [now apply Wd|]. unfold arity. now rewrite Z. }
  induction L as [|w fs o v gs argv G L IH|w fs o vs gs argv G V F L IH|s gs argv V L IH]; intros o' vs' I.
  - destruct I.
  - destruct (word_gives_in _ _ _ _ _ G) as (J & A & T). apply in_app_or in I. destruct I as [I|[I|I]]; [now apply (B fs)| |now apply IH].
    injection I as <- <-. split; [now apply Wd|]. unfold arity. assert (T' : takes_value o) by (apply T; discriminate). unfold takes_value in T'.
    destruct (o_nargs o); [eauto|eauto|discriminate|contradiction].
  - destruct (word_gives_in _ _ _ _ _ G) as (J & A & T). apply in_app_or in I. destruct I as [I|[I|I]]; [now apply (B fs)| |now apply IH].
    injection I as <- <-. split; [now apply Wd|]. unfold fits in F. unfold arity. destruct (o_nargs o).
    + destruct vs as [|v [|]]; try discriminate F. eauto.
    + destruct F as [F|[F _]]; [|now left]. destruct vs as [|v [|]]; try discriminate F. right. eauto.
    + apply F.
    + exact F.
  - destruct I as [I|I]; [discriminate I|now apply IH].
Qed.

Section Settings.
Variables (files : string -> option string) (to_float : string -> res lim).
Notation take_action := (take_action files to_float).
Notation settings := (settings files to_float).
Notation valid := (valid files to_float).
Notation accepts := (accepts files to_float).
Notation process := (process files to_float).

Lemma settings_nil : settings [] namespace0.
Proof.
  split; try (exists None; split; [apply last_none; intros ? ? []|reflexivity]).
  - split; [discriminate|]. intros (o & vs & [] & _).
  - intro s. split; [discriminate|intros []].
Qed.
Lemma valid_nil sourced : valid sourced [].
Proof.
  repeat split.
  - intros o vs [].
  - intros (o & vs & [] & _).
  - intros [(o & vs & [] & _) _].
  - intros s s' [|? ?] ? ?; discriminate.
  - intros _ s [].
Qed.
Lemma input_none gs n : shaped gs -> settings gs n -> n_input n = None <-> ~ gives AInput gs.
Proof.
  intros Sh S. destruct (set_input _ _ _ _ S) as (r & L & H). rewrite (last_gives _ _ _ L). split.
  - intros E [vs ->]. inversion L as [|l o vs' l' A N X Y]; subst. destruct (Sh o vs) as [Wd Ar]; [apply in_or_app; right; now left|].
    unfold arity in Ar. rewrite Wd, A in Ar. destruct Ar as [v ->]. destruct H as (text & _ & H). congruence.
  - intro N. destruct r as [vs|]; [exfalso; apply N; eauto|exact H].
Qed.
Lemma image_none gs n : shaped gs -> settings gs n -> n_image n = None <-> ~ gives AImage gs.
Proof.
  intros Sh S. destruct (set_image _ _ _ _ S) as (r & L & H). rewrite (last_gives _ _ _ L). split.
  - intros E [vs ->]. inversion L as [|l o vs' l' A N X Y]; subst. destruct (Sh o vs) as [Wd Ar]; [apply in_or_app; right; now left|].
    unfold arity in Ar. rewrite Wd, A in Ar. destruct Ar as [v ->]. destruct H as (text & _ & H). congruence.
  - intro N. destruct r as [vs|]; [exfalso; apply N; eauto|exact H].
Qed.

Lemma source_other gs o vs (P : option string) :
  (forall s, P = Some s <-> In (GSource s) gs) -> forall s, P = Some s <-> In (GSource s) (gs ++ [GOpt o vs]).
Proof. intros H s. rewrite in_app_iff, H. split; [now left|]. intros [I|[I|[]]]; [exact I|discriminate I]. Qed.
Ltac others := match goal with
  | |- one_setting _ _ _ _ _ _ => apply one_other; [cbn; congruence|eassumption]
  | |- list_setting _ _ _ _ => apply list_other; [cbn; congruence|eassumption]
  | |- _ <-> gives AShow _ => rewrite gives_snoc; cbn; intuition congruence
  | |- forall s, _ <-> In (GSource s) _ => apply source_other; eassumption
  | |- _ => idtac
  end.
(** One more option. *)
Lemma action_settings gs n o vs n' : settings gs n -> wired o -> arity o vs -> take_action o vs n = Parsed n' -> settings (gs ++ [GOpt o vs]) n'.
Proof.
  intros [s1 s2 s3 s4 s5 s6 s7 s8 s9 s10] Wd Ar H. unfold arity in Ar. rewrite Wd in Ar. unfold DemoMain.take_action in H. clear Wd.
  destruct (o_action o) eqn:E.
  - discriminate H.
  - destruct Ar as [->|[v ->]]; [|unfold converted in H; destruct (to_float v) as [x|] eqn:X; [|discriminate H]];
      injection H as <-; split; cbn [n_timeout n_limit n_show n_input n_image n_labels n_colors n_board n_zeros n_source]; others.
    + now apply one_bare.
    + refine (one_same _ _ _ _ _ _ _ _ _ E _); exact X.
  - destruct Ar as [->|[v ->]]; [|unfold converted in H; destruct (int_of_text v) as [x|] eqn:X; [|discriminate H]];
      injection H as <-; split; cbn [n_timeout n_limit n_show n_input n_image n_labels n_colors n_board n_zeros n_source]; others.
    + now apply one_bare.
    + refine (one_same _ _ _ _ _ _ _ _ _ E _); eauto.
  - injection H as <-; split; cbn [n_timeout n_limit n_show n_input n_image n_labels n_colors n_board n_zeros n_source]; others.
  - destruct Ar as [v ->]. destruct (files v) as [text|] eqn:X; [|discriminate H]. destruct (n_image n); [discriminate H|].
    injection H as <-; split; cbn [n_timeout n_limit n_show n_input n_image n_labels n_colors n_board n_zeros n_source]; others.
    refine (one_same _ _ _ _ _ _ _ _ _ E _); eauto.
  - destruct Ar as [v ->]. destruct (files v) as [text|] eqn:X; [|discriminate H]. destruct (n_input n); [discriminate H|].
    injection H as <-; split; cbn [n_timeout n_limit n_show n_input n_image n_labels n_colors n_board n_zeros n_source]; others.
    refine (one_same _ _ _ _ _ _ _ _ _ E _); eauto.
  - destruct vs as [|v vs]; [now contradiction Ar|]. injection H as <-; split; cbn [n_timeout n_limit n_show n_input n_image n_labels n_colors n_board n_zeros n_source]; others.
    now apply list_same.
  - destruct vs as [|v vs]; [now contradiction Ar|]. injection H as <-; split; cbn [n_timeout n_limit n_show n_input n_image n_labels n_colors n_board n_zeros n_source]; others.
    now apply list_same.
  - destruct Ar as [v ->]. unfold converted in H; destruct (int_of_text v) as [x|] eqn:X; [|discriminate H].
    injection H as <-; split; cbn [n_timeout n_limit n_show n_input n_image n_labels n_colors n_board n_zeros n_source]; others.
    refine (one_same _ _ _ _ _ _ _ _ _ E _); exact X.
  - destruct Ar as [->|[v ->]]; [|unfold converted in H; destruct (type_on_off v) as [x|] eqn:X; [|discriminate H]];
      injection H as <-; split; cbn [n_timeout n_limit n_show n_input n_image n_labels n_colors n_board n_zeros n_source]; others.
    + now apply one_bare.
    + refine (one_same _ _ _ _ _ _ _ _ _ E _); exact X.
Qed.

Lemma converted_iff {A B} (r : res A) (k : A -> B) : (exists n, converted r k = Parsed n) <-> exists x, r = Ok x.
Proof. destruct r as [x|e]; cbn; split; intros [y H]; try discriminate H; eauto. Qed.
Lemma one_value (P : string -> Prop) v : (forall v', In v' [v] -> P v') <-> P v.
Proof. split; [intro H; apply H; now left|]. intros H v' [<-|[]]. exact H. Qed.
Definition fine (gs : list given) (o : optdef) (vs : list string) : Prop :=
  accepts o vs /\ o_action o <> AHelp /\ (o_action o = AInput -> ~ gives AImage gs) /\ (o_action o = AImage -> ~ gives AInput gs).
Lemma plain_fine (P Q R R' : Prop) a : a <> AHelp -> a <> AInput -> a <> AImage -> (P <-> Q) ->
  (P <-> Q /\ a <> AHelp /\ (a = AInput -> R) /\ (a = AImage -> R')).
Proof. intros A B C H. rewrite H. split; [|tauto]. intro K. repeat split; try assumption; intro; contradiction. Qed.
Lemma action_fine gs n o vs : settings gs n -> shaped gs -> wired o -> arity o vs ->
  (exists n', take_action o vs n = Parsed n') <-> fine gs o vs.
Proof.
  intros S Sh Wd Ar. pose proof (input_none gs n Sh S) as In. pose proof (image_none gs n Sh S) as Im.
  unfold arity in Ar. rewrite Wd in Ar. unfold fine, SpecMain.accepts, DemoMain.take_action. clear Wd.
  destruct (o_action o) eqn:E.
  - split; [intros [n' H]; discriminate H|]. intros (_ & H & _). contradiction.
  - apply plain_fine; [discriminate..|]. destruct Ar as [->|[v ->]]; [|now rewrite converted_iff, one_value]. split; [intros _ v []|eauto].
  - apply plain_fine; [discriminate..|]. destruct Ar as [->|[v ->]]; [|now rewrite converted_iff, one_value]. split; [intros _ v []|eauto].
  - apply plain_fine; [discriminate..|]. split; [trivial|eauto].
  - destruct Ar as [v ->]. rewrite one_value. destruct (files v) as [text|].
    + destruct (n_image n) as [i|].
      * split; [intros [n' H]; discriminate H|]. intros (_ & _ & H & _). exfalso. assert (X : Some i = None) by (apply Im, H; reflexivity). discriminate X.
      * split; [intros _|eauto]. repeat split; [eauto|discriminate| |discriminate]. intros _. now apply Im.
    + split; [intros [n' H]; discriminate H|]. intros ([text H] & _). discriminate H.
  - destruct Ar as [v ->]. rewrite one_value. destruct (files v) as [text|].
    + destruct (n_input n) as [i|].
      * split; [intros [n' H]; discriminate H|]. intros (_ & _ & _ & H). exfalso. assert (X : Some i = None) by (apply In, H; reflexivity). discriminate X.
      * split; [intros _|eauto]. repeat split; [eauto|discriminate|discriminate|]. intros _. now apply In.
    + split; [intros [n' H]; discriminate H|]. intros ([text H] & _). discriminate H.
  - apply plain_fine; [discriminate..|]. destruct vs as [|v vs]; [now contradiction Ar|]. split; [trivial|eauto].
  - apply plain_fine; [discriminate..|]. destruct vs as [|v vs]; [now contradiction Ar|]. split; [trivial|eauto].
  - apply plain_fine; [discriminate..|]. destruct Ar as [v ->]. now rewrite converted_iff, one_value.
  - apply plain_fine; [discriminate..|]. destruct Ar as [->|[v ->]]; [|now rewrite converted_iff, one_value]. split; [intros _ v []|eauto].
Qed.

Definition is_source (g : given) : bool := match g with GSource _ => true | _ => false end.
Lemma source_in gs : existsb is_source gs = true <-> exists s, In (GSource s) gs.
Proof.
  rewrite existsb_exists. split.
  - intros ([o vs|s] & I & E); [discriminate E|eauto].
  - intros [s I]. exists (GSource s). auto.
Qed.
Definition add_fine (sourced : bool) (gs : list given) (g : given) : Prop :=
  match g with GOpt o vs => fine gs o vs | GSource s => sourced && negb (existsb is_source gs) = true end.
Lemma add_source sourced gs : sourced && negb (existsb is_source gs) = true <-> sourced = true /\ forall s, ~ In (GSource s) gs.
Proof.
  rewrite andb_true_iff, negb_true_iff, <- not_true_iff_false, source_in. split; intros [A B]; (split; [exact A|]).
  - intros s I. apply B. eauto.
  - intros [s I]. now apply (B s).
Qed.
Lemma not_other_opt a o vs : ~ other a (GOpt o vs) <-> o_action o = a.
Proof. cbn. split; [|auto]. intro H. destruct (action_eq_dec (o_action o) a) as [E|E]; [exact E|contradiction]. Qed.
Lemma valid_snoc sourced gs g : valid sourced (gs ++ [g]) <-> valid sourced gs /\ add_fine sourced gs g.
Proof.
  unfold SpecMain.valid. split.
  - intros (A & B & C & D & E).
    assert (V : valid sourced gs).
    { split; [intros o vs I; apply A, in_or_app; now left|]. rewrite !gives_snoc in *.
      split; [intro H; apply B; now left|]. split; [intros [H K]; apply C; split; now left|].
      split; [|intros F s I; apply (E F s), in_or_app; now left].
      intros s s' l1 l2 l3 H. apply (D s s' l1 l2 (l3 ++ [g])). rewrite H, <- app_assoc. cbn. now rewrite <- app_assoc. }
    split; [exact V|]. destruct g as [o vs|s]; cbn [add_fine].
    + unfold fine. split; [apply A, in_or_app; right; now left|]. rewrite !gives_snoc, !not_other_opt in *. tauto.
    + apply add_source. split.
      * destruct sourced; [reflexivity|]. exfalso. apply (E eq_refl s), in_or_app. right. now left.
      * intros s' I. apply in_split in I. destruct I as (l1 & l2 & ->). apply (D s' s l1 l2 []). now rewrite <- app_assoc.
  - intros [(A & B & C & D & E) F]. destruct g as [o vs|s]; cbn [add_fine] in F.
    + destruct F as (F1 & F2 & F3 & F4). split; [intros o' vs' I; apply in_app_or in I; destruct I as [I|[I|[]]]; [now apply A|now injection I as <- <-]|].
      rewrite !gives_snoc, !not_other_opt.
      split; [tauto|]. split.
      { intros [[H|H] [K|K]]; [now apply C|now apply (F4 K)|now apply (F3 H)|congruence]. }
      split.
      * intros s s' l1 l2 l3 H. assert (X : l3 = [] \/ exists l4 x, l3 = l4 ++ [x]) by (destruct l3 as [|y l3]; [now left|right; destruct (exists_last (l:=y :: l3)) as (l4 & x & ->); [discriminate|eauto]]).
        destruct X as [->|(l4 & x & ->)].
        -- change (l1 ++ GSource s :: l2 ++ [GSource s']) with (l1 ++ (GSource s :: l2) ++ [GSource s']) in H. rewrite app_assoc in H. apply app_inj_tail in H. destruct H as [_ H]. discriminate H.
        -- replace (l1 ++ GSource s :: l2 ++ GSource s' :: l4 ++ [x]) with ((l1 ++ GSource s :: l2 ++ GSource s' :: l4) ++ [x]) in H by (rewrite <- app_assoc; cbn; now rewrite <- app_assoc).
           apply app_inj_tail in H. destruct H as [H _]. now apply (D s s' l1 l2 l4).
      * intros Fa s I. apply in_app_or in I. destruct I as [I|[I|[]]]; [now apply (E Fa s)|discriminate I].
    + apply add_source in F. destruct F as [F1 F2]. split; [intros o' vs' I; apply in_app_or in I; destruct I as [I|[I|[]]]; [now apply A|discriminate I]|].
      rewrite !gives_snoc. cbn [other]. split; [tauto|]. split; [tauto|]. split; [|congruence].
      intros s1 s2 l1 l2 l3 H. assert (I : In (GSource s1) (gs ++ [GSource s])) by (rewrite H; apply in_or_app; right; now left).
      assert (X : l3 = [] \/ exists l4 x, l3 = l4 ++ [x]) by (destruct l3 as [|y l3]; [now left|right; destruct (exists_last (l:=y :: l3)) as (l4 & x & ->); [discriminate|eauto]]).
      destruct X as [->|(l4 & x & ->)].
      * change (l1 ++ GSource s1 :: l2 ++ [GSource s2]) with (l1 ++ (GSource s1 :: l2) ++ [GSource s2]) in H. rewrite app_assoc in H. apply app_inj_tail in H. destruct H as [H _].
        apply (F2 s1). rewrite H. apply in_or_app. right. now left.
      * replace (l1 ++ GSource s1 :: l2 ++ GSource s2 :: l4 ++ [x]) with ((l1 ++ GSource s1 :: l2 ++ GSource s2 :: l4) ++ [x]) in H by (rewrite <- app_assoc; cbn; now rewrite <- app_assoc).
        apply app_inj_tail in H. destruct H as [H _]. now apply (D s1 s2 l1 l2 l4).
Qed.

Lemma process_extras gs source n n' : process gs source true n <> Parsed (n', false).
Proof.
  revert source n. induction gs as [|[o vs|s] gs IH]; intros source n; cbn; [congruence| |].
  - destruct (take_action o vs n); try discriminate. apply IH.
  - destruct source; apply IH.
Qed.
Lemma shaped_snoc gs g : shaped (gs ++ [g]) -> shaped gs /\ match g with GOpt o vs => wired o /\ arity o vs | _ => True end.
Proof.
  intro H. split; [intros o vs I; apply H, in_or_app; now left|]. destruct g as [o vs|s]; [|exact I]. apply H, in_or_app. right. now left.
Qed.
Lemma source_settings gs n s : (forall s', ~ In (GSource s') gs) -> settings gs n -> settings (gs ++ [GSource s]) (set_source s n).
Proof.
  intros N [s1 s2 s3 s4 s5 s6 s7 s8 s9 s10].
  split; cbn [set_source n_timeout n_limit n_show n_input n_image n_labels n_colors n_board n_zeros n_source];
    try (apply one_other; [exact I|assumption]); try (apply list_other; [exact I|assumption]).
  - rewrite gives_snoc, s3. cbn. tauto.
  - intro s'. rewrite in_app_iff. split; [intros [= <-]; right; now left|].
    intros [K|[K|[]]]; [exfalso; now apply (N s')|now injection K as <-].
Qed.
Lemma process_settings sourced gs n : shaped gs -> process gs sourced false namespace0 = Parsed (n, false) -> valid sourced gs /\ settings gs n.
Proof.
  revert n. induction gs as [|g gs IH] using rev_ind; intros n Sh H.
  - injection H as <-. split; [apply valid_nil|apply settings_nil].
  - apply shaped_snoc in Sh. destruct Sh as [Sh Sg]. rewrite process_app in H.
    destruct (process gs sourced false namespace0) as [| |[n1 ex]] eqn:P; try discriminate H.
    destruct ex; [exfalso; now apply process_extras in H|]. destruct (IH n1 Sh eq_refl) as [V S]. rewrite valid_snoc.
    destruct g as [o vs|s]; cbn [MainFacts.process add_fine] in *.
    + destruct (take_action o vs n1) as [| |n2] eqn:T; try discriminate H. injection H as <-.
      destruct Sg as [Wd Ar]. split; [split; [exact V|]|now apply (action_settings gs n1)].
      apply (action_fine gs n1 o vs S Sh Wd Ar). eauto.
    + change (fun g => match g with GOpt _ _ => false | GSource _ => true end) with is_source in H.
      destruct (sourced && negb (existsb is_source gs)) eqn:B; [|discriminate H]. injection H as <-.
      split; [split; [exact V|reflexivity]|]. apply source_settings; [|exact S]. now apply add_source in B.
Qed.
Lemma process_valid sourced gs : shaped gs -> valid sourced gs -> exists n, process gs sourced false namespace0 = Parsed (n, false).
Proof.
  induction gs as [|g gs IH] using rev_ind; intros Sh V; [eexists; reflexivity|].
  apply shaped_snoc in Sh. destruct Sh as [Sh Sg]. apply valid_snoc in V. destruct V as [V F].
  destruct (IH Sh V) as [n1 P]. destruct (process_settings sourced gs n1 Sh P) as [_ S]. rewrite process_app, P.
  destruct g as [o vs|s]; cbn [MainFacts.process add_fine] in *.
  - destruct Sg as [Wd Ar]. apply (action_fine gs n1 o vs S Sh Wd Ar) in F. destruct F as [n2 ->]. eauto.
  - change (fun g => match g with GOpt _ _ => false | GSource _ => true end) with is_source. rewrite F. eauto.
Qed.
Lemma one_unique {A} a gs (d b : A) (rd : string -> A -> Prop) x y : (forall v x y, rd v x -> rd v y -> x = y) ->
  one_setting a gs d b rd x -> one_setting a gs d b rd y -> x = y.
Proof.
  intros U (r & L & H) (r' & L' & H'). rewrite (last_given_unique _ _ _ _ L' L) in H'. destruct r as [[|v vs]|]; [congruence|now apply (U v)|congruence].
Qed.
Lemma list_unique a gs d x y : list_setting a gs d x -> list_setting a gs d y -> x = y.
Proof. intros (r & L & H) (r' & L' & H'). rewrite (last_given_unique _ _ _ _ L' L) in H'. congruence. Qed.
Lemma settings_unique gs n n' : settings gs n -> settings gs n' -> n = n'.
Proof.
  intros [s1 s2 s3 s4 s5 s6 s7 s8 s9 s10] [t1 t2 t3 t4 t5 t6 t7 t8 t9 t10]. destruct n, n'. cbn in *. f_equal.
  - eapply one_unique; [|exact s1|exact t1]. cbn. congruence.
  - eapply one_unique; [|exact s2|exact t2]. intros v x y (z & A & ->) (z' & B & ->). congruence.
  - apply eq_true_iff_eq. now rewrite s3, t3.
  - eapply one_unique; [|exact s4|exact t4]. intros v x y (z & A & ->) (z' & B & ->). congruence.
  - eapply one_unique; [|exact s5|exact t5]. intros v x y (z & A & ->) (z' & B & ->). congruence.
  - eapply list_unique; [exact s6|exact t6].
  - eapply list_unique; [exact s7|exact t7].
  - eapply one_unique; [|exact s8|exact t8]. cbn. congruence.
  - eapply one_unique; [|exact s9|exact t9]. cbn. congruence.
  - match goal with |- ?a = ?b => destruct a as [x|] end; [symmetry; apply t10, s10; reflexivity|].
    match goal with |- None = ?b => destruct b as [x|] end; [|reflexivity]. apply s10, t10. reflexivity.
Qed.
End Settings.

(** ** The commands *)
Ltac nodup := repeat (apply NoDup_cons; [let H := fresh in intro H; repeat (destruct H as [H|H]; [discriminate H|]); exact H|]); apply NoDup_nil.
Lemma options_wf c : wf (options_of c).
Proof.
  split.
  - destruct c; cbn [options_of map app]; nodup.
  - destruct c; cbn [options_of map app]; nodup.
  - assert (F : Forall (fun o => o_short o <> "-"%char /\ o_short o <> "="%char /\ eq_free (o_long o) /\ o_long o <> ""%string) (options_of c)).
    { destruct c; repeat constructor; try discriminate; intro H; apply has_char_iff in H; vm_compute in H; discriminate H. }
    intros o I. now apply (proj1 (Forall_forall _ _) F).
Qed.
Lemma options_wired c o : In o (options_of c) -> wired o.
Proof.
  assert (F : Forall wired (options_of c)) by (destruct c; repeat constructor). intro I. now apply (proj1 (Forall_forall _ _) F).
Qed.
Lemma commands_name s c : In (s, c) commands <-> dget commands s = Some c.
Proof.
  split.
  - intro I. cbn in I. repeat (destruct I as [I|I]; [injection I as <- <-; reflexivity|]). destruct I.
  - unfold commands. cbn [dget]. repeat (match goal with |- context [String.eqb s ?x] => destruct (String.eqb_spec s x) as [->|] end; [intros [= <-]; cbn; tauto|]). discriminate.
Qed.
Lemma command_arg s c : In (s, c) commands -> classify [o_help] s = Some WArg.
Proof. intro I. cbn in I. repeat (destruct I as [I|I]; [injection I as <- <-; reflexivity|]). destruct I. Qed.

Section Top.
Variables (files : string -> option string) (to_float : string -> res lim).
Notation parse_top := (parse_top files to_float).
Notation parse_args := (parse_args files to_float).
Notation settings := (settings files to_float).
Notation valid := (valid files to_float).
Lemma top_extras fuel argv c n : parse_top fuel true argv <> Parsed (Some (c, n)).
Proof.
  revert argv. induction fuel as [|fuel IH]; intro argv; [discriminate|]. cbn [DemoMain.parse_top].
  destruct argv as [|s rest]; [discriminate|]. destruct (classify [o_help] s) as [[|[o|] os e]|]; try discriminate.
  - destruct (dget commands s); [|discriminate]. destruct (parse_known _ _ _ _ _) as [| |[n' ex]]; discriminate.
  - destruct (consume_optional _ _ _ _ _); discriminate.
  - apply IH.
Qed.
Lemma args_command s c rest : In (s, c) commands ->
  parse_args (s :: rest) =
  match parse_known files to_float (options_of c) (takes_source c) rest with
  | Help => Help | Usage => Usage | Parsed (n, ex) => if ex then Usage else Parsed (Some (c, n)) end.
Proof.
  intro I. unfold DemoMain.parse_args. cbn [DemoMain.parse_top]. rewrite (command_arg s c I).
  apply commands_name in I. rewrite I. reflexivity.
Qed.
Lemma args_run argv c n : parse_args argv = Parsed (Some (c, n)) ->
  exists s rest, argv = s :: rest /\ In (s, c) commands /\ parse_known files to_float (options_of c) (takes_source c) rest = Parsed (n, false).
Proof.
  intro H. unfold DemoMain.parse_args in H. cbn [DemoMain.parse_top] in H.
  destruct argv as [|s rest]; [discriminate H|]. destruct (classify [o_help] s) as [[|[o|] os e]|]; try discriminate H.
  - destruct (dget commands s) as [c'|] eqn:D; [|discriminate H]. apply commands_name in D.
    destruct (parse_known _ _ _ _ _) as [| |[n' ex]] eqn:K; try discriminate H. cbn [orb] in H. destruct ex; [discriminate H|]. injection H as -> ->.
    exists s, rest. auto.
  - destruct (consume_optional _ _ _ _ _); discriminate H.
  - exfalso. now apply top_extras in H.
Qed.

Lemma args_iff argv c n : parse_args argv = Parsed (Some (c, n)) <->
  exists s rest gs, argv = s :: rest /\ In (s, c) commands /\ line (options_of c) gs rest /\ valid (takes_source c) gs /\ settings gs n.
Proof.
  split.
  - intro H. apply args_run in H. destruct H as (s & rest & -> & I & K). apply known_parsed in K; [|apply options_wf].
    destruct K as (gs & L & P). apply process_settings in P; [|exact (line_shaped _ _ _ (options_wired c) L)].
    exists s, rest, gs. tauto.
  - intros (s & rest & gs & -> & I & L & V & S). rewrite (args_command s c rest I), (known_line files to_float _ _ rest gs (options_wf c) L).
    pose proof (line_shaped _ _ _ (options_wired c) L) as Sh.
    destruct (process_valid files to_float _ gs Sh V) as [n' P]. rewrite P.
    apply process_settings in P; [|exact Sh]. now rewrite (settings_unique files to_float gs n n' S (proj2 P)).
Qed.
Lemma settings_exist sourced t gs argv : (forall o, In o t -> wired o) -> line t gs argv -> valid sourced gs -> exists n, settings gs n.
Proof.
  intros Wd L V. pose proof (line_shaped _ _ _ Wd L) as Sh. destruct (process_valid files to_float sourced gs Sh V) as [n P].
  exists n. now apply process_settings in P.
Qed.

(** Help and errors. *)
Lemma process_nohelp gs source ex n : ~ gives AHelp gs -> process files to_float gs source ex n <> Help.
Proof.
  revert source ex n. induction gs as [|[o vs|s] gs IH]; intros source ex n N; cbn; [discriminate| |].
  - assert (N' : ~ gives AHelp gs) by (intros (o' & vs' & I & E); apply N; exists o', vs'; split; [now right|exact E]).
    destruct (take_action files to_float o vs n) eqn:T; [|discriminate|now apply IH].
    exfalso. apply N. exists o, vs. split; [now left|]. revert T. unfold take_action, converted.
    destruct (o_action o), vs; try discriminate; try reflexivity;
      repeat match goal with |- context [match ?x with _ => _ end] => destruct x end; discriminate.
  - assert (N' : ~ gives AHelp gs) by (intros (o' & vs' & I & E); apply N; exists o', vs'; split; [now right|exact E]).
    destruct source; now apply IH.
Qed.
Lemma args_usage s c rest gs : In (s, c) commands -> line (options_of c) gs rest -> ~ gives AHelp gs -> ~ valid (takes_source c) gs ->
  parse_args (s :: rest) = Usage.
Proof.
  intros I L N V. rewrite (args_command s c rest I), (known_line files to_float _ _ rest gs (options_wf c) L).
  destruct (process files to_float gs (takes_source c) false namespace0) as [| |[n ex]] eqn:P; [|reflexivity|].
  - exfalso. now apply process_nohelp in P.
  - destruct ex; [reflexivity|]. exfalso. apply V. apply process_settings in P; [apply P|exact (line_shaped _ _ _ (options_wired c) L)].
Qed.
Lemma args_noline s c rest : In (s, c) commands -> (forall gs, ~ line (options_of c) gs rest) ->
  forall n, parse_args (s :: rest) <> Parsed n.
Proof.
  intros I N n H. rewrite (args_command s c rest I) in H.
  destruct (parse_known _ _ _ _ _) as [| |[n' ex]] eqn:K; try discriminate H. destruct ex; [discriminate H|].
  apply known_parsed in K; [|apply options_wf]. destruct K as (gs & L & _). now apply (N gs).
Qed.
Lemma args_help s c rest gs1 o vs gs2 : In (s, c) commands -> line (options_of c) (gs1 ++ GOpt o vs :: gs2) rest ->
  valid (takes_source c) gs1 -> o_action o = AHelp -> parse_args (s :: rest) = Help.
Proof.
  intros I L V A. rewrite (args_command s c rest I), (known_line files to_float _ _ rest _ (options_wf c) L), process_app.
  assert (Sh : shaped gs1) by (intros o' vs' J; apply (line_shaped _ _ _ (options_wired c) L), in_or_app; now left).
  destruct (process_valid files to_float (takes_source c) gs1 Sh V) as [n ->]. cbn. unfold take_action. now rewrite A.
Qed.
End Top.

(** ** [main] *)
Lemma commands_iff s c : In (s, c) commands <-> s = command_name c.
Proof.
  split.
  - intro I. cbn in I. repeat (destruct I as [I|I]; [injection I as <- <-; reflexivity|]). destruct I.
  - intros ->. destruct c; cbn; tauto.
Qed.
Lemma options_iff c o : In o (options_of c) <-> has_option c (o_short o) (o_long o) (o_nargs o) (o_action o).
Proof.
  split.
  - intro I. destruct c; cbn in I; repeat (destruct I as [<-|I]; [constructor; cbn; tauto|]); destruct I.
  - destruct o as [a b n x]. cbn [o_short o_long o_nargs o_action]. intro H.
    inversion H as [E1 E2 E3 E4|E1 E2 E3 E4|E1 E2 E3 E4|E1 E2 E3 E4|K E1 E2 E3 E4|K E1 E2 E3 E4|K E1 E2 E3 E4|K E1 E2 E3 E4|K E1 E2 E3 E4|K E1 E2 E3 E4]; subst a b n x.
    + now left.
    + right. apply in_or_app. right. now left.
    + right. apply in_or_app. right. right. now left.
    + right. apply in_or_app. right. right. right. now left.
    + right. apply in_or_app. left. cbn in K. repeat (destruct K as [<-|K]; [now left|]). destruct K.
    + subst c. right. right. now left.
    + subst c. right. right. now left.
    + subst c. right. right. now left.
    + subst c. right. now left.
    + subst c. right. now left.
Qed.

Section MainProofs.
Variables (files : string -> option string) (to_float : string -> res lim).
Variables (clk : nat -> Z) (shuffle : list name -> list name) (fuel gfuel : nat) (order : list name -> list name).
Variables (morder : list point -> list point) (seconds : Z -> string) (colored : ascii -> string -> res string).
Notation main := (main files to_float clk shuffle fuel gfuel order morder seconds colored).
Notation program := (program clk shuffle fuel gfuel order morder seconds colored).
Notation settings := (settings files to_float).
Notation valid := (valid files to_float).
Lemma no_dashes argv : existsb (String.eqb "--") argv = false <-> ~ In "--"%string argv.
Proof.
  rewrite <- not_true_iff_false, existsb_exists. split; intros H K; apply H.
  - exists "--"%string. split; [exact K|apply String.eqb_refl].
  - destruct K as (x & I & E). apply String.eqb_eq in E. now subst x.
Qed.
Lemma main_cases argv : ~ In "--"%string argv -> main argv = Some match parse_args files to_float argv with
  | Usage => Exit 2 | Help | Parsed None => Exit 0 | Parsed (Some (c, n)) => Ran (program c n) end.
Proof.
  intro N. unfold DemoMain.main. apply no_dashes in N. rewrite N. unfold SpecMain.program. cbv zeta. destruct (parse_args _ _ argv) as [| |[[c n]|]]; [reflexivity..| |reflexivity]. destruct c; cbv iota; reflexivity.
Qed.
Lemma main_run argv out : main argv = Some (Ran out) <->
  ~ In "--"%string argv /\ exists c rest gs n, argv = command_name c :: rest /\ line (options_of c) gs rest /\ valid (takes_source c) gs /\
    settings gs n /\ out = program c n.
Proof.
  split.
  - intro H. assert (N : ~ In "--"%string argv).
    { apply no_dashes. unfold DemoMain.main in H. destruct (existsb _ argv); [discriminate H|reflexivity]. }
    split; [exact N|]. rewrite main_cases in H by exact N. destruct (parse_args _ _ argv) as [| |[[c n]|]] eqn:P; try discriminate H.
    injection H as <-. apply args_iff in P. destruct P as (s & rest & gs & -> & I & L & V & S). apply commands_iff in I. subst s. exists c, rest, gs, n. auto.
  - intros (N & c & rest & gs & n & -> & L & V & S & ->). rewrite main_cases by exact N.
    rewrite (proj2 (args_iff files to_float (command_name c :: rest) c n)); [reflexivity|].
    exists (command_name c), rest, gs. rewrite commands_iff. auto.
Qed.
Lemma main_line c rest gs : ~ In "--"%string rest -> line (options_of c) gs rest -> valid (takes_source c) gs ->
  exists n, settings gs n /\ (forall n', settings gs n' -> n' = n) /\ main (command_name c :: rest) = Some (Ran (program c n)).
Proof.
  intros N L V. destruct (settings_exist files to_float (takes_source c) (options_of c) gs rest (options_wired c) L V) as [n S].
  exists n. split; [exact S|]. split; [intros n' S'; exact (settings_unique files to_float gs n' n S' S)|].
  apply main_run. split; [intros [E|I]; [destruct c; discriminate E|now apply N]|]. exists c, rest, gs, n. auto.
Qed.
Lemma main_usage c rest gs : ~ In "--"%string rest -> line (options_of c) gs rest -> ~ gives AHelp gs -> ~ valid (takes_source c) gs ->
  main (command_name c :: rest) = Some (Exit 2).
Proof.
  intros N L H V. rewrite main_cases by (intros [E|I]; [destruct c; discriminate E|now apply N]).
  now rewrite (args_usage files to_float (command_name c) c rest gs (proj2 (commands_iff _ _) eq_refl) L H V).
Qed.
Lemma main_help c rest gs1 o vs gs2 : ~ In "--"%string rest -> line (options_of c) (gs1 ++ GOpt o vs :: gs2) rest -> valid (takes_source c) gs1 ->
  o_action o = AHelp -> main (command_name c :: rest) = Some (Exit 0).
Proof.
  intros N L V A. rewrite main_cases by (intros [E|I]; [destruct c; discriminate E|now apply N]).
  now rewrite (args_help files to_float (command_name c) c rest gs1 o vs gs2 (proj2 (commands_iff _ _) eq_refl) L V A).
Qed.
Lemma main_noline c rest : ~ In "--"%string rest -> (forall gs, ~ line (options_of c) gs rest) ->
  main (command_name c :: rest) = Some (Exit 2) \/ main (command_name c :: rest) = Some (Exit 0).
Proof.
  intros N L. rewrite main_cases by (intros [E|I]; [destruct c; discriminate E|now apply N]).
  pose proof (args_noline files to_float (command_name c) c rest (proj2 (commands_iff _ _) eq_refl) L) as X.
  destruct (parse_args _ _ _) as [| |n]; [now right|now left|]. exfalso. now apply (X n).
Qed.
Lemma main_unknown w rest : ~ In "--"%string (w :: rest) -> (forall c, w <> command_name c) -> (forall s, w <> String "-" s) ->
  main (w :: rest) = Some (Exit 2).
Proof.
  intros N U D. rewrite main_cases by exact N. unfold DemoMain.parse_args. cbn [DemoMain.parse_top].
  assert (C : classify [o_help] w = Some WArg).
  { destruct w as [|c w]; [reflexivity|]. unfold classify. rewrite (proj2 (Ascii.eqb_neq c "-")); [reflexivity|]. intros ->. now apply (D w). }
  rewrite C. destruct (dget commands w) as [c|] eqn:E; [|reflexivity]. exfalso. apply commands_name, commands_iff in E. now apply (U c).
Qed.
(** An option that takes a word takes the source. *)
Lemma source_taken source : (forall s, source <> String "-" s) -> (forall b, type_on_off source <> Ok b) ->
  main ["cryptarithm"; "-z"; source]%string = Some (Exit 2).
Proof.
  intros D B.
  assert (V : value (options_of CCryptarithm) source).
  { destruct source as [|c s]; [constructor|]. constructor. intros ->. now apply (D s). }
  assert (L : line (options_of CCryptarithm) ([GOpt o_zeros [source]]) ["-z"; source]%string).
  { apply (line_next _ "-z"%string [] o_zeros [source] [] []); [|repeat constructor; exact V|now left|constructor].
    apply word_name, (name_short _ o_zeros). right. now left. }
  change "cryptarithm"%string with (command_name CCryptarithm).
  apply (main_usage CCryptarithm ["-z"; source]%string _) in L; [exact L| | |].
  - intros [E|[E|[]]]; [discriminate E|]. now apply (D "-"%string).
  - intros (o & vs & [E|[]] & A). injection E as <- <-. discriminate A.
  - intros (A & _). destruct (A o_zeros [source] (or_introl eq_refl) source (or_introl eq_refl)) as [b E]. now apply (B b).
Qed.
Lemma source_first : main ["cryptarithm"; "SEND+MORE==MONEY"; "-z"]%string =
  Some (Ran (cryptarithm_main clk shuffle fuel seconds order (Some "SEND+MORE==MONEY"%string) true LNone LNone false)).
Proof.
  rewrite main_cases.
  - replace (parse_args files to_float _) with (Parsed (Some (CCryptarithm, set_source "SEND+MORE==MONEY" namespace0))) by (vm_compute; reflexivity).
    unfold SpecMain.program. cbv zeta iota. unfold set_source, namespace0. cbn [n_timeout n_limit n_show n_source n_zeros]. reflexivity.
  - intros [E|[E|[E|[]]]]; discriminate E.
Qed.
Lemma source_order : exists source,
  main ["cryptarithm"; source; "-z"]%string = Some (Ran (cryptarithm_main clk shuffle fuel seconds order (Some source) true LNone LNone false)) /\
  main ["cryptarithm"; "-z"; source]%string = Some (Exit 2).
Proof.
  exists "SEND+MORE==MONEY"%string. split; [exact source_first|]. apply source_taken; [discriminate|]. intros b H. vm_compute in H. discriminate H.
Qed.
End MainProofs.
Lemma words_case : let t := options_of CQueens in
  exists gs, gs = [GOpt (Opt "t" "timeout" Optional ATimeout) []; GOpt o_board ["5"%string]; GOpt (Opt "s" "show-model" Zero AShow) [];
      GOpt (Opt "l" "limit" Optional ALimit) ["3"%string]; GOpt o_board ["6"%string]; GOpt (Opt "l" "limit" Optional ALimit) ["-1"%string]] /\
    line t gs ["-t"; "--board=5"; "-sl3"; "-b"; "6"; "--limit"; "-1"]%string /\
    parse_args (fun _ => None) (fun _ => Err ValueError) ["queens"; "-t"; "--board=5"; "-sl3"; "-b"; "6"; "--limit"; "-1"]%string =
      Parsed (Some (CQueens, Namespace LInfinity (LNum (-1)) true None None ["red"; "blue"; "green"]%string ["red"; "blue"; "green"; "yellow"]%string 6 true None)).
Proof.
  intro t. eexists. split; [reflexivity|]. split; [|vm_compute; reflexivity].
  apply (compute_line t 20 (options_wf CQueens)). vm_compute. reflexivity.
Qed.
