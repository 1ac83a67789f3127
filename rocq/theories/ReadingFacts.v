(** The generated text is read as [SpecReading] says. *)
From Coq Require Import Lia.
From Verif Require Import Dec DecFacts PyText SpecFormula SpecSafe SpecReading ExprFacts PyTextFacts ParseFacts CompileFacts.
Open Scope list_scope.
Open Scope Z_scope.

(** ** More fuel gives the same result *)
Definition mono_at (f g : nat) : Prop :=
  (forall lvl ts x, parse f lvl ts = Some x -> parse g lvl ts = Some x) /\
  (forall lvl a ts x, parse_loop f lvl a ts = Some x -> parse_loop g lvl a ts = Some x) /\
  (forall ts x, parse_cmps f ts = Some x -> parse_cmps g ts = Some x) /\
  (forall ts x, parse_list f ts = Some x -> parse_list g ts = Some x).

Lemma mono_step f g : mono_at f g -> mono_at (S f) (S g).
Proof.
  intros (Hp & Hl & Hc & Hs).
    assert (Pbin : forall lvl ts x, binlvl lvl = true -> parse (S f) lvl ts = Some x -> parse (S g) lvl ts = Some x).
    { intros lvl ts x Hb. rewrite !(parse_bin _ lvl ts Hb). destruct (parse f (S lvl) ts) as [[a r]|] eqn:E; [|discriminate].
      rewrite (Hp _ _ _ E). apply Hl. }
    split; [|split; [|split]].
    + intros lvl ts x H. destruct (binlvl lvl) eqn:Hb; [now apply Pbin|].
      destruct lvl as [|[|[|[|[|[|[|[|[|[|[|[|lvl]]]]]]]]]]]]; try discriminate.
      * (* 2 *) cbn [parse] in H |- *. destruct ts as [|t ts]; [now apply Hp|].
        destruct t; try (now apply Hp). destruct (parse f 2 ts) as [[a r]|] eqn:E; [|discriminate].
        now rewrite (Hp _ _ _ E).
      * (* 3 *) cbn [parse] in H |- *. destruct (parse f 4 ts) as [[a r]|] eqn:E; [|discriminate]. rewrite (Hp _ _ _ E).
        destruct (parse_cmps f r) as [[l r']|] eqn:E'; [|discriminate]. now rewrite (Hc _ _ E').
      * (* 9 *) cbn [parse] in H |- *. destruct ts as [|t ts]; [discriminate|].
        destruct (unary_tok t); [|now apply Hp]. destruct (parse f 9 ts) as [[b r]|] eqn:E; [|discriminate].
        now rewrite (Hp _ _ _ E).
      * (* 10 *) cbn [parse] in H |- *. destruct (parse f 11 ts) as [[a r]|] eqn:E; [|discriminate]. rewrite (Hp _ _ _ E).
        destruct r as [|t r]; [assumption|]. destruct t; try assumption.
        destruct (parse f 9 r) as [[b r']|] eqn:E'; [|discriminate]. now rewrite (Hp _ _ _ E').
      * (* 11 *) cbn [parse] in H |- *. destruct ts as [|t ts]; [assumption|]. destruct t; try assumption.
        -- destruct ts as [|t ts]; [assumption|]. destruct t; try assumption.
           destruct ts as [|t ts].
           ++ destruct (parse f 0 []) as [[a r]|] eqn:E; [|discriminate]. now rewrite (Hp _ _ _ E).
           ++ destruct t;
                try (match type of H with context [parse f 0 ?l] => destruct (parse f 0 l) as [[a r]|] eqn:E; [|discriminate H]; now rewrite (Hp _ _ _ E) end).
              destruct (parse_list f ts) as [[l r]|] eqn:E; [|discriminate]. now rewrite (Hs _ _ E).
        -- destruct (parse f 0 ts) as [[a r]|] eqn:E; [|discriminate]. now rewrite (Hp _ _ _ E).
      * (* beyond *)
        remember (S (S (S (S (S (S (S (S (S (S (S (S lvl)))))))))))) as n.
        assert (G : forall h, parse (S h) n ts = match parse h (S n) ts with Some (a, r) => parse_loop h n a r | None => None end) by (intros h; subst n; reflexivity).
        rewrite G in H |- *. destruct (parse f (S n) ts) as [[a r]|] eqn:E; [|discriminate].
        rewrite (Hp _ _ _ E). now apply Hl.
    + intros lvl a ts x H. cbn [parse_loop] in H |- *. destruct ts as [|t ts]; [assumption|].
      destruct (binop_at lvl t); [|assumption]. destruct (parse f (S lvl) ts) as [[b r]|] eqn:E; [|discriminate].
      rewrite (Hp _ _ _ E). now apply Hl.
    + intros ts x H. cbn [parse_cmps] in H |- *. destruct ts as [|t ts]; [assumption|].
      destruct (cmp_tok t); [|assumption]. destruct (parse f 4 ts) as [[b r]|] eqn:E; [|discriminate]. rewrite (Hp _ _ _ E).
      destruct (parse_cmps f r) as [[l r']|] eqn:E'; [|discriminate]. now rewrite (Hc _ _ E').
    + intros ts x H. cbn [parse_list] in H |- *. destruct (parse f 0 ts) as [[a r]|] eqn:E; [|discriminate]. rewrite (Hp _ _ _ E).
      destruct r as [|t r]; [assumption|]. destruct t; try assumption.
      destruct (parse_list f r) as [[l r']|] eqn:E'; [|discriminate]. now rewrite (Hs _ _ E').
Qed.

Lemma mono f : mono_at f (S f).
Proof. induction f as [|f IH]; [repeat split; intros; discriminate|now apply mono_step]. Qed.

Lemma parse_more d : forall f lvl ts x, parse f lvl ts = Some x -> parse (d + f) lvl ts = Some x.
Proof. induction d as [|d IH]; intros f lvl ts x H; [exact H|]. change (S d + f)%nat with (S (d + f)). now apply mono, IH. Qed.

(** A text that parses with enough fuel parses to the same tree with any fuel, or not at all. *)
Lemma pok_any lvl ts a r : pok lvl ts a r -> forall f, parse f lvl ts = None \/ parse f lvl ts = Some (a, r).
Proof.
  intros [_ H] f. destruct (parse f lvl ts) as [x|] eqn:E; [|now left]. right.
  apply (parse_more (20 * (length ts - length r) + 21)%nat) in E. rewrite H in E by lia. now injection E as <-.
Qed.

(** ** Texts that do not parse *)
Definition nopok (lvl : nat) (ts : list tok) : Prop := forall f, parse f lvl ts = None.
Definition noloop (lvl : nat) (a : ast) (ts : list tok) : Prop := forall f, parse_loop f lvl a ts = None.
Definition nolist (ts : list tok) : Prop := forall f, parse_list f ts = None.

Lemma nopok_loop lvl ts a r : binlvl lvl = true -> pok (S lvl) ts a r -> noloop lvl a r -> nopok lvl ts.
Proof.
  intros Hb Hp Hl [|f]; [reflexivity|]. rewrite parse_bin by assumption.
  destruct (pok_any _ _ _ _ Hp f) as [->| ->]; [reflexivity|apply Hl].
Qed.
Lemma noloop_step lvl acc t mk ts b r : binop_at lvl t = Some mk -> pok (S lvl) ts b r -> noloop lvl (mk acc b) r -> noloop lvl acc (t :: ts).
Proof.
  intros Hm Hp Hl [|f]; [reflexivity|]. cbn [parse_loop]. rewrite Hm.
  destruct (pok_any _ _ _ _ Hp f) as [->| ->]; [reflexivity|apply Hl].
Qed.
Lemma noloop_here lvl acc t mk ts : binop_at lvl t = Some mk -> nopok (S lvl) ts -> noloop lvl acc (t :: ts).
Proof. intros Hm Hn [|f]; [reflexivity|]. cbn [parse_loop]. now rewrite Hm, Hn. Qed.

Lemma nopok_lift1 k ts : (k <= 10)%nat -> nopok (S k) ts -> hd_ok k (S k) ts -> nopok k ts.
Proof.
  intros Hk Hn Hh [|f]; [reflexivity|]. destruct (binlvl k) eqn:Hb.
  - now rewrite parse_bin, Hn.
  - destruct k as [|[|[|[|[|[|[|[|[|[|[|k]]]]]]]]]]]; try discriminate; try lia; cbn [parse].
    + destruct ts as [|t ts]; [contradiction|]. destruct Hh as [H _]. specialize (H ltac:(lia)). destruct t; try apply Hn. contradiction.
    + now rewrite Hn.
    + destruct ts as [|t ts]; [reflexivity|]. destruct Hh as [_ H]. rewrite (H ltac:(lia)). apply Hn.
    + now rewrite Hn.
Qed.
Lemma nopok_lift k j ts : (j <= k <= 11)%nat -> nopok k ts -> hd_ok j k ts -> nopok j ts.
Proof.
  intros Hjk Hp Hh. remember (k - j)%nat as d eqn:Hd.
  revert k Hjk Hp Hh Hd. induction d as [|d IH]; intros k Hjk Hp Hh Hd.
  - replace j with k by lia. assumption.
  - destruct k as [|k]; [lia|]. apply (IH k); [lia| |eapply hd_ok_narrow; [| |exact Hh]; lia|lia].
    apply nopok_lift1; [lia|assumption|eapply hd_ok_narrow; [| |exact Hh]; lia].
Qed.
Lemma nopok_not ts : nopok 2 ts -> nopok 2 (TNot :: ts).
Proof. intros Hn [|f]; [reflexivity|]. cbn [parse]. now rewrite Hn. Qed.
Lemma nopok_minus ts : nopok 9 ts -> nopok 9 (TMinus :: ts).
Proof. intros Hn [|f]; [reflexivity|]. cbn [parse unary_tok]. now rewrite Hn. Qed.
Lemma nopok_cmp ts a t c ts' : cmp_tok t = Some c -> pok 4 ts a (t :: ts') -> nopok 4 ts' -> nopok 3 ts.
Proof.
  intros Hc Hp Hn [|f]; [reflexivity|]. cbn [parse]. destruct (pok_any _ _ _ _ Hp f) as [->| ->]; [reflexivity|].
  destruct f as [|f]; [reflexivity|]. cbn [parse_cmps]. now rewrite Hc, Hn.
Qed.
Lemma nopok_pow ts a ts' : pok 11 ts a (TDStar :: ts') -> nopok 9 ts' -> nopok 10 ts.
Proof. intros Hp Hn [|f]; [reflexivity|]. cbn [parse]. destruct (pok_any _ _ _ _ Hp f) as [->| ->]; [reflexivity|]. now rewrite Hn. Qed.
Lemma nopok_paren ts : nopok 0 ts -> nopok 11 (TLP :: ts).
Proof. intros Hn [|f]; [reflexivity|]. cbn [parse]. now rewrite Hn. Qed.
Lemma nopok_call x ts : nopok 0 ts -> (match ts with TLB :: _ => False | _ => True end) -> nopok 11 (TId x :: TLP :: ts).
Proof.
  intros Hn Hlb [|f]; [reflexivity|]. cbn [parse]. specialize (Hn f).
  destruct ts as [|t ts]; [now rewrite Hn|]. destruct t; try contradiction; now rewrite Hn.
Qed.
Lemma nopok_calll x ts : nolist ts -> nopok 11 (TId x :: TLP :: TLB :: ts).
Proof. intros Hn [|f]; [reflexivity|]. cbn [parse]. now rewrite Hn. Qed.
Lemma nolist_here ts : nopok 0 ts -> nolist ts.
Proof. intros Hn [|f]; [reflexivity|]. cbn [parse_list]. now rewrite Hn. Qed.
Lemma nolist_cons ts a ts' : pok 0 ts a (TComma :: ts') -> nolist ts' -> nolist ts.
Proof. intros Hp Hn [|f]; [reflexivity|]. cbn [parse_list]. destruct (pok_any _ _ _ _ Hp f) as [->| ->]; [reflexivity|]. now rewrite Hn. Qed.
Lemma nopok_tnot lvl ts : (3 <= lvl <= 11)%nat -> nopok lvl (TNot :: ts).
Proof. intros H. apply (nopok_lift 11); [lia|intros [|f]; reflexivity|]. split; [lia|reflexivity]. Qed.

(** ** Reading at a level *)
Definition pread (lvl : nat) (ts : list tok) (o : option ast) (r : list tok) : Prop :=
  match o with Some a => pok lvl ts a r | None => nopok lvl ts end.
Definition omap {A B} (f : A -> B) (o : option A) : option B := match o with Some a => Some (f a) | None => None end.
Lemma pread_lift k j ts o r : (j <= k <= 11)%nat -> pread k ts o r -> stop j r = true -> hd_ok j k ts -> pread j ts o r.
Proof. intros Hjk Hp Hs Hh. destruct o as [a|]; [now apply (pok_lift k)|now apply (nopok_lift k)]. Qed.

(** An atom: number, name, call, parenthesis (or something unreadable). *)
Definition head_ok (ts : list tok) : Prop :=
  match ts with t :: _ => t <> TNot /\ unary_tok t = None /\ t <> TLB | [] => False end.
Definition atom_ok (ts : list tok) (o : option ast) : Prop :=
  head_ok ts /\ forall r, stop 11 r = true -> pread 11 (ts ++ r) o r.
Definition sign_toks (m : bool) : list tok := if m then [TMinus] else [].
Fixpoint not_toks (k : nat) (ts : list tok) : list tok := match k with O => ts | S k' => TNot :: not_toks k' ts end.
Definition piece_ok (ts : list tok) (p : piece) : Prop :=
  exists ats, ts = not_toks (nots p) (sign_toks (minus p) ++ ats) /\ atom_ok ats (atom p).

Lemma head_hd_ok ts r j k : head_ok ts -> hd_ok j k (ts ++ r).
Proof. destruct ts as [|t ts]; [contradiction|]. intros (H1 & H2 & _). split; auto. Qed.
Lemma sign_hd_ok m ts r j : head_ok ts -> hd_ok j 9 (sign_toks m ++ ts ++ r).
Proof. intros H. destruct m; [split; [discriminate|lia]|]. cbn [sign_toks app]. now apply head_hd_ok. Qed.

Lemma signed_read m ts o j r : (j <= 9)%nat -> atom_ok ts o -> stop j r = true -> pread j (sign_toks m ++ ts ++ r) (omap (signed m) o) r.
Proof.
  intros Hj [Hh Hp] Hs. apply (pread_lift 9); [lia| |assumption|now apply sign_hd_ok].
  assert (H9 : pread 9 (ts ++ r) o r).
  { apply (pread_lift 11); [lia| | |now apply head_hd_ok]; [apply Hp|]; (eapply stop_mono; [|exact Hs]; lia). }
  destruct m; destruct o as [a|]; cbn [omap signed sign_toks app]; try exact H9; [now apply pok_minus|now apply nopok_minus].
Qed.
Lemma noted_read k ts o r : pread 2 (ts ++ r) o r -> pread 2 (not_toks k ts ++ r) (omap (noted k) o) r.
Proof.
  induction k as [|k IH]; intros H; [destruct o; exact H|]. specialize (IH H). cbn [not_toks noted app].
  destruct o as [a|]; cbn [omap noted] in *; [now apply pok_not|now apply nopok_not].
Qed.
Lemma whole_read ts p j r : (j <= 2)%nat -> piece_ok ts p -> stop j r = true -> pread j (ts ++ r) (whole p) r.
Proof.
  intros Hj (ats & -> & Ha) Hs.
  assert (H2 : pread 2 (not_toks (nots p) (sign_toks (minus p) ++ ats) ++ r) (whole p) r).
  { replace (whole p) with (omap (noted (nots p)) (omap (signed (minus p)) (atom p))) by (unfold whole; destruct (atom p); reflexivity).
    apply noted_read. rewrite <- app_assoc. apply signed_read; [lia|assumption|]. eapply stop_mono; [|exact Hs]. lia. }
  apply (pread_lift 2); [lia|exact H2|assumption|].
  destruct (nots p) as [|k]; cbn [not_toks].
  - rewrite <- app_assoc. destruct Ha as [Hh _]. destruct (minus p); [split; [discriminate|lia]|].
    cbn [sign_toks app]. now apply head_hd_ok.
  - split; lia.
Qed.
Lemma piece_first ts p : piece_ok ts p -> exists t ts', ts = t :: ts' /\ t <> TLB.
Proof.
  intros (ats & -> & Hh & _). destruct (nots p); [|cbn [not_toks]; eexists _, _; split; [reflexivity|discriminate]].
  cbn [not_toks]. destruct (minus p); cbn [sign_toks app]; [eexists _, _; split; [reflexivity|discriminate]|].
  destruct ats as [|t ats]; [contradiction|]. exists t, ats. split; [reflexivity|apply Hh].
Qed.

(** ** Operators *)
Definition str_tok (o : binop) : tok := match o with ODiv => TSlash | OAnd => TAmp | OOr => TBar | _ => op_tok o end.

(** An element of an [or] chain. *)
Definition elem_ok (ts : list tok) (o : option ast) : Prop := forall r, stop 1 r = true -> pread 1 (ts ++ r) o r.
Lemma whole_elem ts p : piece_ok ts p -> elem_ok ts (whole p).
Proof. intros H r Hs. apply whole_read; [lia|assumption|assumption]. Qed.

(** Operators of one level; [lvl] = 3 stands for the comparisons. *)
Lemma bin_read lvl t mk p q tp tq r :
  (4 <= lvl <= 8)%nat -> binop_at lvl t = Some mk -> oplevel t = Some lvl -> binlvl lvl = true ->
  atom_ok tp (atom p) -> piece_ok tq q -> stop 3 r = true ->
  pread 3 (sign_toks (minus p) ++ tp ++ t :: tq ++ r)
    (match atom p, atom q, nots q with Some a, Some b, O => Some (mk (signed (minus p) a) (signed (minus q) b)) | _, _, _ => None end) r.
Proof.
  intros Hl Hm Ho Hb Hp (ats & -> & Hq) Hs.
  assert (St : forall l, stop (S lvl) (t :: l) = true) by (intros l; simpl; rewrite Ho; apply Nat.ltb_lt; lia).
  apply (pread_lift lvl); [lia| |exact Hs|eapply hd_ok_narrow; [| |apply (sign_hd_ok _ _ _ 0); apply Hp]; lia].
  pose proof (fun l => signed_read (minus p) tp (atom p) (S lvl) (t :: l) ltac:(lia) Hp (St l)) as HP.
  destruct (atom p) as [a|]; cbn [omap] in HP.
  2:{ apply nopok_lift1; [lia|apply HP|eapply hd_ok_narrow; [| |apply (sign_hd_ok _ _ _ 0); apply Hp]; lia]. }
  destruct (nots q) as [|k]; cbn [not_toks].
  - assert (HQ : pread (S lvl) ((sign_toks (minus q) ++ ats) ++ r) (omap (signed (minus q)) (atom q)) r).
    { rewrite <- app_assoc. apply signed_read; [lia|assumption|]. eapply stop_mono; [|exact Hs]. lia. }
    destruct (atom q) as [b|]; cbn [omap] in HQ.
    + eapply pok_bin; [exact Hb|apply HP|]. eapply lok_step; [exact Hm|exact HQ|]. apply lok_stop. eapply stop_mono; [|exact Hs]. lia.
    + eapply nopok_loop; [exact Hb|apply HP|]. eapply noloop_here; [exact Hm|exact HQ].
  - assert (HQ : nopok (S lvl) ((TNot :: not_toks k (sign_toks (minus q) ++ ats)) ++ r)) by (apply nopok_tnot; lia).
    destruct (atom q); (eapply nopok_loop; [exact Hb|apply HP|]; eapply noloop_here; [exact Hm|exact HQ]).
Qed.
Lemma cmp_read t c p q tp tq r :
  cmp_tok t = Some c -> atom_ok tp (atom p) -> piece_ok tq q -> stop 3 r = true ->
  pread 3 (sign_toks (minus p) ++ tp ++ t :: tq ++ r)
    (match atom p, atom q, nots q with Some a, Some b, O => Some (ACmp (signed (minus p) a) [(c, signed (minus q) b)]) | _, _, _ => None end) r.
Proof.
  intros Hc Hp (ats & -> & Hq) Hs.
  assert (St : forall l, stop 4 (t :: l) = true) by (intros l; destruct t; try discriminate; reflexivity).
  pose proof (fun l => signed_read (minus p) tp (atom p) 4 (t :: l) ltac:(lia) Hp (St l)) as HP.
  destruct (atom p) as [a|]; cbn [omap] in HP.
  2:{ apply nopok_lift1; [lia|apply HP|eapply hd_ok_narrow; [| |apply (sign_hd_ok _ _ _ 0); apply Hp]; lia]. }
  destruct (nots q) as [|k]; cbn [not_toks].
  - assert (HQ : pread 4 ((sign_toks (minus q) ++ ats) ++ r) (omap (signed (minus q)) (atom q)) r).
    { rewrite <- app_assoc. apply signed_read; [lia|assumption|]. eapply stop_mono; [|exact Hs]. lia. }
    destruct (atom q) as [b|]; cbn [omap] in HQ.
    + eapply pok_cmp; [exact Hc|apply HP|exact HQ|exact Hs].
    + eapply nopok_cmp; [exact Hc|apply HP|exact HQ].
  - assert (HQ : nopok 4 ((TNot :: not_toks k (sign_toks (minus q) ++ ats)) ++ r)) by (apply nopok_tnot; lia).
    destruct (atom q); (eapply nopok_cmp; [exact Hc|apply HP|exact HQ]).
Qed.
Lemma pow_read p q tp tq r :
  atom_ok tp (atom p) -> piece_ok tq q -> stop 3 r = true ->
  pread 3 (sign_toks (minus p) ++ tp ++ TDStar :: tq ++ r)
    (match atom p, atom q, nots q with Some a, Some b, O => Some (signed (minus p) (ABin PPow a (signed (minus q) b))) | _, _, _ => None end) r.
Proof.
  intros Hp (ats & -> & Hq) Hs.
  assert (Hs9 : stop 9 r = true) by (eapply stop_mono; [|exact Hs]; lia).
  apply (pread_lift 9); [lia| |exact Hs|apply sign_hd_ok; apply Hp].
  pose proof (fun l => proj2 Hp (TDStar :: l) eq_refl) as HP.
  assert (H10 : pread 9 (tp ++ TDStar :: not_toks (nots q) (sign_toks (minus q) ++ ats) ++ r)
     (match atom p, atom q, nots q with Some a, Some b, O => Some (ABin PPow a (signed (minus q) b)) | _, _, _ => None end) r).
  { apply (pread_lift 10); [lia| |exact Hs9|eapply hd_ok_narrow; [| |apply (head_hd_ok tp _ 9 10); apply Hp]; lia].
    destruct (atom p) as [a|]; cbn [pread] in HP.
    2:{ apply nopok_lift1; [lia|apply HP|eapply hd_ok_narrow; [| |apply (head_hd_ok tp _ 10 11); apply Hp]; lia]. }
    destruct (nots q) as [|k]; cbn [not_toks].
    - assert (HQ : pread 9 ((sign_toks (minus q) ++ ats) ++ r) (omap (signed (minus q)) (atom q)) r).
      { rewrite <- app_assoc. now apply signed_read. }
      destruct (atom q) as [b|]; cbn [omap] in HQ.
      + eapply pok_pow; [apply HP|exact HQ].
      + eapply nopok_pow; [apply HP|exact HQ].
    - assert (HQ : nopok 9 ((TNot :: not_toks k (sign_toks (minus q) ++ ats)) ++ r)) by (apply nopok_tnot; lia).
      destruct (atom q); (eapply nopok_pow; [apply HP|exact HQ]). }
  destruct (minus p); cbn [sign_toks app signed] in *; [|exact H10].
  destruct (atom p); [|now apply nopok_minus]. destruct (atom q); [|now apply nopok_minus].
  destruct (nots q); [now apply pok_minus|now apply nopok_minus].
Qed.

(** Operators binding tighter than [not], with the symbols of both printing methods. *)
Lemma tight_read mk o t p q tp tq :
  (o <> OAnd /\ o <> OOr /\ mk = py_symbol /\ t = op_tok o) \/ (mk = str_symbol /\ t = str_tok o) ->
  piece_ok tp p -> piece_ok tq q -> elem_ok (tp ++ t :: tq) (tight_join mk o p q).
Proof.
  intros Hmk (ats & -> & Hp) Hq r Hs. rewrite <- app_assoc. cbn [app].
  assert (Hs3 : stop 3 r = true) by (eapply stop_mono; [|exact Hs]; lia).
  assert (H3 : pread 3 (sign_toks (minus p) ++ ats ++ t :: tq ++ r)
     (match atom p, atom q, nots q with
      | Some a, Some b, O => Some (match o with
              | OPow => signed (minus p) (mk o a (signed (minus q) b))
              | _ => mk o (signed (minus p) a) (signed (minus q) b)
              end)
      | _, _, _ => None end) r).
  { destruct Hmk as [(N1 & N2 & -> & ->)|[-> ->]]; destruct o; try contradiction;
      cbn [py_symbol str_symbol op_tok str_tok];
      try (now apply pow_read); try (now apply cmp_read);
      first [ now apply (bin_read 7 _ (ABin PAdd)) | now apply (bin_read 7 _ (ABin PSub)) | now apply (bin_read 8 _ (ABin PMul))
            | now apply (bin_read 8 _ (ABin PFloorDiv)) | now apply (bin_read 8 _ (ABin PTrueDiv)) | now apply (bin_read 8 _ (ABin PMod))
            | now apply (bin_read 6 _ (ABin PBitAnd)) | now apply (bin_read 4 _ (ABin PBitOr))
            | apply (bin_read 7 _ (ABin PAdd)); auto; lia | apply (bin_read 7 _ (ABin PSub)); auto; lia | apply (bin_read 8 _ (ABin PMul)); auto; lia
            | apply (bin_read 8 _ (ABin PFloorDiv)); auto; lia | apply (bin_read 8 _ (ABin PTrueDiv)); auto; lia | apply (bin_read 8 _ (ABin PMod)); auto; lia
            | apply (bin_read 6 _ (ABin PBitAnd)); auto; lia | apply (bin_read 4 _ (ABin PBitOr)); auto; lia ]. }
  assert (Hh : hd_ok 1 3 (sign_toks (minus p) ++ ats ++ t :: tq ++ r)) by (eapply hd_ok_narrow; [| |apply (sign_hd_ok _ _ _ 1); apply Hp]; lia).
  assert (H2 : pread 2 (not_toks (nots p) (sign_toks (minus p) ++ ats) ++ t :: tq ++ r) (tight_join mk o p q) r).
  { replace (not_toks (nots p) (sign_toks (minus p) ++ ats) ++ t :: tq ++ r) with (not_toks (nots p) (sign_toks (minus p) ++ ats ++ t :: tq) ++ r)
      by (clear; induction (nots p) as [|k IH]; cbn [not_toks app]; [now rewrite <- !app_assoc|now rewrite IH]).
    unfold tight_join.
    assert (G : pread 2 ((sign_toks (minus p) ++ ats ++ t :: tq) ++ r)
      (match atom p, atom q, nots q with
      | Some a, Some b, O => Some (match o with
              | OPow => signed (minus p) (mk o a (signed (minus q) b))
              | _ => mk o (signed (minus p) a) (signed (minus q) b)
              end)
      | _, _, _ => None end) r).
    { rewrite <- !app_assoc. cbn [app]. apply (pread_lift 3); [lia|exact H3|eapply stop_mono; [|exact Hs]; lia|]. eapply hd_ok_narrow; [| |exact Hh]; lia. }
    apply (noted_read (nots p)) in G. destruct (atom p); [|exact G]. destruct (atom q); [|exact G]. destruct (nots q); exact G. }
  apply (pread_lift 2); [lia|exact H2|exact Hs|]. destruct (nots p); cbn [not_toks app]; [|split; lia].
  rewrite <- app_assoc. eapply hd_ok_narrow; [| |exact Hh]; lia.
Qed.

Lemma binop_dec (o o' : binop) : {o = o'} + {o <> o'}.
Proof. decide equality. Qed.
Lemma join_read o p q tp tq : o <> OOr -> piece_ok tp p -> piece_ok tq q -> elem_ok (tp ++ op_tok o :: tq) (join o p q).
Proof.
  intros Ho Hp Hq. destruct (binop_dec o OAnd) as [->|No].
  - intros r Hs. rewrite <- app_assoc. cbn [app join op_tok].
    pose proof (whole_read tp p 2 (TAnd :: tq ++ r) ltac:(lia) Hp eq_refl) as HP.
    assert (HQ : pread 2 (tq ++ r) (whole q) r) by (apply whole_read; [lia|assumption|eapply stop_mono; [|exact Hs]; lia]).
    destruct (whole p) as [a|]; [|apply nopok_lift1; [lia|exact HP|]].
    + destruct (whole q) as [b|].
      * eapply (pok_bin 1); [reflexivity|exact HP|]. eapply lok_step; [reflexivity|exact HQ|]. now apply lok_stop.
      * eapply (nopok_loop 1); [reflexivity|exact HP|]. eapply noloop_here; [reflexivity|exact HQ].
    + destruct (piece_first tp p Hp) as (t & ts & -> & _). split; lia.
  - replace (join o p q) with (tight_join py_symbol o p q) by (destruct o; try reflexivity; contradiction).
    apply tight_read; [left; now repeat split|assumption|assumption].
Qed.

(** ** [or] chains *)
Fixpoint ojoin (l : list (list tok)) : list tok :=
  match l with [] => [] | [x] => x | x :: l' => x ++ TOr :: ojoin l' end.
Lemma ojoin_cons x y l : ojoin (x :: y :: l) = x ++ TOr :: ojoin (y :: l).
Proof. reflexivity. Qed.
Lemma ojoin_app l1 l2 : l1 <> [] -> l2 <> [] -> ojoin (l1 ++ l2) = ojoin l1 ++ TOr :: ojoin l2.
Proof.
  induction l1 as [|x l1 IH]; intros N1 N2; [contradiction|]. destruct l1 as [|y l1].
  - destruct l2; [contradiction|reflexivity].
  - cbn [app]. rewrite !ojoin_cons. cbn [app] in IH. rewrite IH by (discriminate || assumption). now rewrite <- app_assoc.
Qed.

Lemma chain_loop tss l r : Forall2 elem_ok tss l -> tss <> [] -> stop 0 r = true -> forall acc,
  match all_read l with
  | Some as_ => lok 0 acc (TOr :: ojoin tss ++ r) (fold_left AOr as_ acc) r
  | None => noloop 0 acc (TOr :: ojoin tss ++ r)
  end.
Proof.
  intros H. induction H as [|ts o tss l He Hr IH]; intros Hne Hs acc; [contradiction|].
  destruct Hr as [|ts2 o2 tss l He2 Hr].
  - cbn [ojoin all_read]. specialize (He r ltac:(eapply stop_mono; [|exact Hs]; lia)). destruct o as [a|]; cbn [pread fold_left] in *.
    + eapply lok_step; [reflexivity|exact He|]. now apply lok_stop.
    + eapply noloop_here; [reflexivity|exact He].
  - rewrite ojoin_cons, <- app_assoc. cbn [app].
    specialize (He (TOr :: ojoin (ts2 :: tss) ++ r) eq_refl).
    change (all_read (o :: o2 :: l)) with (match o with Some a => match all_read (o2 :: l) with Some q => Some (a :: q) | None => None end | None => None end).
    destruct o as [a|]; cbn [pread] in He; [|eapply noloop_here; [reflexivity|exact He]].
    specialize (IH ltac:(discriminate) Hs (AOr acc a)). destruct (all_read (o2 :: l)) as [as_|].
    + cbn [fold_left]. eapply lok_step; [reflexivity|exact He|exact IH].
    + eapply noloop_step; [reflexivity|exact He|exact IH].
Qed.
Lemma chain_read tss l r : Forall2 elem_ok tss l -> tss <> [] -> stop 0 r = true -> pread 0 (ojoin tss ++ r) (ors l) r.
Proof.
  intros H Hne Hs. destruct H as [|ts o tss l He Hr]; [contradiction|]. unfold ors.
  destruct Hr as [|ts2 o2 tss l He2 Hr].
  - cbn [ojoin all_read]. specialize (He r ltac:(eapply stop_mono; [|exact Hs]; lia)). destruct o as [a|]; cbn [pread fold_left] in *.
    + eapply (pok_bin 0); [reflexivity|exact He|]. now apply lok_stop.
    + intros [|f]; [reflexivity|]. rewrite parse_bin by reflexivity. now rewrite He.
  - rewrite ojoin_cons, <- app_assoc. cbn [app].
    specialize (He (TOr :: ojoin (ts2 :: tss) ++ r) eq_refl).
    change (all_read (o :: o2 :: l)) with (match o with Some a => match all_read (o2 :: l) with Some q => Some (a :: q) | None => None end | None => None end).
    destruct o as [a|]; cbn [pread] in He; [|intros [|f]; [reflexivity|]; rewrite parse_bin by reflexivity; now rewrite He].
    pose proof (chain_loop (ts2 :: tss) (o2 :: l) r (Forall2_cons _ _ He2 Hr) ltac:(discriminate) Hs a) as HL.
    destruct (all_read (o2 :: l)) as [as_|]; cbn [pread].
    + eapply (pok_bin 0); [reflexivity|exact He|exact HL].
    + eapply (nopok_loop 0); [reflexivity|exact He|exact HL].
Qed.

(** The operator between two chains. *)
Fixpoint glue_toks (t : tok) (ps qs : list (list tok)) : list (list tok) :=
  match ps, qs with
  | [p], q :: qs' => (p ++ t :: q) :: qs'
  | p :: ps', _ => p :: glue_toks t ps' qs
  | [], _ => qs
  end.
Lemma glue_join t ps q qs : ps <> [] -> ojoin (glue_toks t ps (q :: qs)) = ojoin ps ++ t :: ojoin (q :: qs) /\ glue_toks t ps (q :: qs) <> [].
Proof.
  induction ps as [|p ps IH]; intros Hne; [contradiction|]. destruct ps as [|p2 ps].
  - cbn [glue_toks]. split; [|discriminate]. destruct qs as [|q2 qs]; [reflexivity|]. cbn [ojoin]. now rewrite <- app_assoc.
  - destruct (IH ltac:(discriminate)) as [E N].
    change (glue_toks t (p :: p2 :: ps) (q :: qs)) with (p :: glue_toks t (p2 :: ps) (q :: qs)).
    split; [|discriminate]. destruct (glue_toks t (p2 :: ps) (q :: qs)) as [|g gs] eqn:Eg; [contradiction|].
    rewrite ojoin_cons, E, ojoin_cons, <- app_assoc. reflexivity.
Qed.
Lemma whole_elems tss l : Forall2 piece_ok tss l -> Forall2 elem_ok tss (map whole l).
Proof. induction 1; constructor; [now apply whole_elem|assumption]. Qed.
Lemma glue_ok o tl l tr r : o <> OOr -> Forall2 piece_ok tl l -> Forall2 piece_ok tr r -> tr <> [] ->
  Forall2 elem_ok (glue_toks (op_tok o) tl tr) (glue o l r).
Proof.
  intros Ho Hl Hr Hne. induction Hl as [|tp p tl l Hp Hl IH]; [now apply whole_elems|].
  destruct Hr as [|tq q tr r Hq Hr]; [contradiction|]. destruct Hl as [|tp2 p2 tl l Hp2 Hl].
  - cbn [glue_toks glue]. constructor; [now apply join_read|now apply whole_elems].
  - change (glue_toks (op_tok o) (tp :: tp2 :: tl) (tq :: tr)) with (tp :: glue_toks (op_tok o) (tp2 :: tl) (tq :: tr)).
    change (glue o (p :: p2 :: l) (q :: r)) with (whole p :: glue o (p2 :: l) (q :: r)).
    constructor; [now apply whole_elem|exact IH].
Qed.

(** ** Atoms *)
Definition delimited (ts : list tok) (o : option ast) : Prop :=
  (exists t ts', ts = t :: ts' /\ t <> TLB) /\ forall r, stop 0 r = true -> pread 0 (ts ++ r) o r.
Lemma piece_delimited ts p : piece_ok ts p -> delimited ts (whole p).
Proof. intros H. split; [now apply (piece_first ts p)|]. intros r Hs. now apply whole_read; [lia| |]. Qed.
Lemma chain_delimited tss l : Forall2 piece_ok tss l -> tss <> [] -> delimited (ojoin tss) (ors (map whole l)).
Proof.
  intros H Hne. split.
  - destruct H as [|ts p tss l Hp H]; [contradiction|]. destruct (piece_first ts p Hp) as (t & ts' & -> & Ht).
    destruct tss; [exists t, ts'; now split|]. rewrite ojoin_cons. cbn [app]. eexists _, _. split; [reflexivity|exact Ht].
  - intros r Hs. apply chain_read; [now apply whole_elems|assumption|assumption].
Qed.
Lemma one_piece ts a : atom_ok ts a -> piece_ok ts (Piece 0 false a).
Proof. intros H. exists ts. split; [reflexivity|exact H]. Qed.
Lemma number_piece z : piece_ok (num_toks z) (number z).
Proof.
  exists [TNum (Z.abs z)]. split.
  - unfold num_toks, number. cbn [nots minus not_toks]. destruct (Z.ltb_spec z 0); cbn [sign_toks app]; do 2 f_equal; f_equal; lia.
  - split; [repeat split; discriminate|]. intros r Hs. cbn [number atom app pread]. apply pok_num.
Qed.
Lemma name_piece x : piece_ok [TId x] (Piece 0 false (Some (AName x))).
Proof. apply one_piece. split; [repeat split; discriminate|]. intros r Hs. cbn [app pread]. now apply pok_name. Qed.
Lemma paren_atom ts o : (forall r, stop 0 r = true -> pread 0 (ts ++ r) o r) -> atom_ok (TLP :: ts ++ [TRP]) o.
Proof.
  intros H. split; [repeat split; discriminate|]. intros r Hs. cbn [app]. rewrite <- app_assoc. cbn [app].
  specialize (H (TRP :: r) eq_refl). destruct o; cbn [pread] in *; [now apply pok_paren|now apply nopok_paren].
Qed.
Lemma call_piece f ts o : delimited ts o -> piece_ok (TId f :: TLP :: ts ++ [TRP]) (call f o).
Proof.
  intros [(t & ts' & -> & Ht) H]. apply one_piece. split; [repeat split; discriminate|]. intros r Hs. cbn [app]. rewrite <- app_assoc. cbn [app].
  specialize (H (TRP :: r) eq_refl). cbn [app] in H.
  assert (N : match t :: ts' ++ TRP :: r with TLB :: _ => False | _ => True end) by (destruct t; try exact I; contradiction).
  destruct o; cbn [pread] in *; [now apply pok_call|now apply nopok_call].
Qed.
Lemma neg_piece ts o : delimited ts o -> piece_ok (TMinus :: TLP :: ts ++ [TRP]) (Piece 0 true o).
Proof. intros [_ H]. exists (TLP :: ts ++ [TRP]). split; [reflexivity|]. now apply paren_atom. Qed.
Lemma list_read tss l r : Forall2 delimited tss l -> tss <> [] -> stop 0 r = true -> (match r with TComma :: _ => False | _ => True end) ->
  match all_read l with Some as_ => lsok (tjoin tss ++ r) as_ r | None => nolist (tjoin tss ++ r) end.
Proof.
  intros H. induction H as [|ts o tss l [_ Hd] Hr IH]; intros Hne Hs Hc; [contradiction|].
  destruct Hr as [|ts2 o2 tss l Hd2 Hr].
  - cbn [tjoin all_read]. specialize (Hd r Hs). destruct o; cbn [pread] in Hd; [now apply lsok_one|now apply nolist_here].
  - change (tjoin (ts :: ts2 :: tss)) with (ts ++ TComma :: tjoin (ts2 :: tss)). rewrite <- app_assoc. cbn [app].
    specialize (Hd (TComma :: tjoin (ts2 :: tss) ++ r) eq_refl).
    change (all_read (o :: o2 :: l)) with (match o with Some a => match all_read (o2 :: l) with Some q => Some (a :: q) | None => None end | None => None end).
    destruct o as [a|]; cbn [pread] in Hd; [|now apply nolist_here].
    specialize (IH ltac:(discriminate) Hs Hc). destruct (all_read (o2 :: l)); [eapply lsok_cons; [exact Hd|exact IH]|eapply nolist_cons; [exact Hd|exact IH]].
Qed.
Lemma call_list_piece f tss l : Forall2 delimited tss l -> tss <> [] -> piece_ok (TId f :: TLP :: TLB :: tjoin tss ++ [TRB; TRP]) (call_list f l).
Proof.
  intros H Hne. apply one_piece. split; [repeat split; discriminate|]. intros r Hs. cbn [app]. rewrite <- app_assoc. cbn [app].
  pose proof (list_read tss l (TRB :: TRP :: r) H Hne eq_refl I) as HL.
  destruct (all_read l); cbn [pread]; [now apply pok_calll|now apply nopok_calll].
Qed.
Lemma printed_ok k c tss l : Forall2 delimited tss l -> Forall2 delimited (values_toks k c tss) (printed k c l).
Proof. intros H. unfold values_toks, printed. destruct (c =? neutral k); [assumption|]. constructor; [apply piece_delimited, number_piece|assumption]. Qed.
Lemma values_nonempty k c (es : list expr) (f : expr -> list tok) : three_values k es c = true -> values_toks k c (map f es) <> [].
Proof. unfold three_values, values_toks. intros H. apply Nat.leb_le in H. destruct (c =? neutral k); [|discriminate]. destruct es; [simpl in H; lia|discriminate]. Qed.

(** ** The tokens *)
Fixpoint stoks (e : expr) : list tok :=
  match e with
  | Const z => num_toks z
  | Var x | Param _ x => [TId x]
  | Neg e1 => TMinus :: TLP :: stoks e1 ++ [TRP]
  | Abs e1 => TId "abs" :: TLP :: stoks e1 ++ [TRP]
  | Not e1 => TCaret :: stoks e1
  | Bin o l r => TLP :: (stoks l ++ str_tok o :: stoks r) ++ [TRP]
  | Sum es c => TId "sum" :: TLP :: TLB :: tjoin (values_toks KSum c (map stoks es)) ++ [TRB; TRP]
  | Prod es c => TId "prod" :: TLP :: TLB :: tjoin (values_toks KProd c (map stoks es)) ++ [TRB; TRP]
  end.
Fixpoint ptoks (ps : pstore) (e : expr) : list tok :=
  match e with
  | Const z => num_toks z
  | Var x => [TId x]
  | Param p _ => num_toks (ps p)
  | Neg e1 => TMinus :: TLP :: stoks e1 ++ [TRP]
  | Abs e1 => TId "abs" :: TLP :: stoks e1 ++ [TRP]
  | Not e1 => TNot :: ptoks ps e1
  | Bin OOr l r => ptoks ps l ++ TOr :: ptoks ps r
  | Bin o l r => TLP :: (ptoks ps l ++ op_tok o :: ptoks ps r) ++ [TRP]
  | Sum es c => TId "sum" :: TLP :: TLB :: tjoin (values_toks KSum c (map (ptoks ps) es)) ++ [TRB; TRP]
  | Prod es c => TId "prod" :: TLP :: TLB :: tjoin (values_toks KProd c (map (ptoks ps) es)) ++ [TRB; TRP]
  end.

Lemma Lx_bin t s l tl r tr : Lx l tl -> Lx r tr -> lex_run LStart (" " ++ s ++ " ") = Ok ([t], LStart) ->
  Lx ("(" ++ l ++ " " ++ s ++ " " ++ r ++ ")") (TLP :: (tl ++ t :: tr) ++ [TRP]).
Proof.
  intros Hl Hr Ht. apply (Lx_open "(" [TLP]); [reflexivity|]. rewrite <- app_assoc. apply Lx_app; [assumption|reflexivity|].
  change (Lx (" " ++ (s ++ (" " ++ (r ++ ")")))) ([t] ++ (tr ++ [TRP]))).
  rewrite <- !sapp_assoc. rewrite sapp_assoc with (b := r). rewrite <- sapp_assoc in Ht. apply Lx_open; [exact Ht|]. now apply Lx_close.
Qed.
Lemma Lx_accs k c es (text : expr -> string) (tk : expr -> list tok) : three_values k es c = true -> (forall e, In e es -> Lx (text e) (tk e)) ->
  Lx (as_str k c (map text es)) (TId (acc_fun k) :: TLP :: TLB :: tjoin (values_toks k c (map tk es)) ++ [TRB; TRP]).
Proof.
  intros H3 H. apply (Lx_acc k c _ _ (acc_fun k)); [reflexivity|now apply Forall2_map|]. rewrite map_length. unfold three_values in H3. now apply Nat.leb_le in H3.
Qed.
Lemma Lx_ok x : name_ok x = true -> Lx x [TId x].
Proof. intros H. destruct (name_ok_tok x H) as [Hi Ht]. rewrite <- Ht. now apply Lx_name. Qed.

Lemma Lx_str e : readable e = true -> Lx (str_expr e) (stoks e).
Proof.
  induction e as [z|y|p y|e IH|e IH|e IH|o l r IHl IHr|es c IH|es c IH] using expr_ind'; cbn [readable]; intros H; cbn [str_expr stoks].
  - apply Lx_int.
  - now apply Lx_ok.
  - now apply Lx_ok.
  - apply (Lx_open "-(" [TMinus; TLP]); [reflexivity|]. now apply Lx_close, IH.
  - apply (Lx_open "abs(" [TId "abs"; TLP]); [reflexivity|]. now apply Lx_close, IH.
  - apply (Lx_open "^" [TCaret]); [reflexivity|]. now apply IH.
  - apply andb_true_iff in H. destruct H as [Hl Hr]. apply Lx_bin; [now apply IHl|now apply IHr|destruct o; reflexivity].
  - apply andb_true_iff in H. destruct H as [H3 H]. rewrite forallb_forall in H. rewrite Forall_forall in IH. apply (Lx_accs KSum); auto.
  - apply andb_true_iff in H. destruct H as [H3 H]. rewrite forallb_forall in H. rewrite Forall_forall in IH. apply (Lx_accs KProd); auto.
Qed.
Lemma Lx_py ps e : readable e = true -> Lx (py_expr ps e) (ptoks ps e).
Proof.
  induction e as [z|y|p y|e IH|e IH|e IH|o l r IHl IHr|es c IH|es c IH] using expr_ind'; cbn [readable]; intros H.
  - apply Lx_int.
  - now apply Lx_ok.
  - apply Lx_int.
  - apply (Lx_open "-(" [TMinus; TLP]); [reflexivity|]. now apply Lx_close, Lx_str.
  - apply (Lx_open "abs(" [TId "abs"; TLP]); [reflexivity|]. now apply Lx_close, Lx_str.
  - apply (Lx_open "not " [TNot]); [reflexivity|]. now apply IH.
  - apply andb_true_iff in H. destruct H as [Hl Hr]. specialize (IHl Hl). specialize (IHr Hr).
    destruct o; try (apply Lx_bin; [assumption|assumption|reflexivity]).
    cbn [py_expr ptoks]. change (Lx (py_expr ps l ++ (" or " ++ py_expr ps r)) (ptoks ps l ++ ([TOr] ++ ptoks ps r))).
    apply Lx_app; [assumption|reflexivity|]. apply (Lx_open " or " [TOr]); [reflexivity|assumption].
  - apply andb_true_iff in H. destruct H as [H3 H]. rewrite forallb_forall in H. rewrite Forall_forall in IH. apply (Lx_accs KSum); auto.
  - apply andb_true_iff in H. destruct H as [H3 H]. rewrite forallb_forall in H. rewrite Forall_forall in IH. apply (Lx_accs KProd); auto.
Qed.

(** ** The text of [__str__] *)
Lemma str_nots e : nots (str_reading e) = O.
Proof. destruct e; reflexivity. Qed.
Lemma str_reads e : readable e = true -> piece_ok (stoks e) (str_reading e).
Proof.
  assert (Hacc : forall k c es, three_values k es c = true -> (forall e, In e es -> piece_ok (stoks e) (str_reading e)) ->
    piece_ok (TId (acc_fun k) :: TLP :: TLB :: tjoin (values_toks k c (map stoks es)) ++ [TRB; TRP])
             (call_list (acc_fun k) (printed k c (map (fun e => whole (str_reading e)) es)))).
  { intros k c es H3 H. apply call_list_piece; [|now apply values_nonempty]. apply printed_ok, Forall2_map. intros x Hx. now apply piece_delimited, H. }
  induction e as [z|y|p y|e IH|e IH|e IH|o l r IHl IHr|es c IH|es c IH] using expr_ind'; cbn [readable]; intros H; cbn [str_reading stoks].
  - apply number_piece.
  - apply name_piece.
  - apply name_piece.
  - now apply neg_piece, piece_delimited, IH.
  - now apply call_piece, piece_delimited, IH.
  - apply one_piece. split; [repeat split; discriminate|]. intros rest Hs. intros [|f]; reflexivity.
  - apply andb_true_iff in H. destruct H as [Hl Hr]. apply one_piece, paren_atom. intros rest Hs.
    pose proof (tight_read str_symbol o (str_tok o) _ _ _ _ (or_intror (conj eq_refl eq_refl)) (IHl Hl) (IHr Hr)) as HE.
    assert (G : Forall2 elem_ok [stoks l ++ str_tok o :: stoks r] [tight_join str_symbol o (str_reading l) (str_reading r)]) by (constructor; [exact HE|constructor]).
    pose proof (chain_read _ _ rest G ltac:(discriminate) Hs) as C. unfold ors in C. cbn [ojoin all_read] in C.
    destruct (tight_join str_symbol o (str_reading l) (str_reading r)); exact C.
  - apply andb_true_iff in H. destruct H as [H3 H]. rewrite forallb_forall in H. rewrite Forall_forall in IH. apply (Hacc KSum); auto.
  - apply andb_true_iff in H. destruct H as [H3 H]. rewrite forallb_forall in H. rewrite Forall_forall in IH. apply (Hacc KProd); auto.
Qed.

(** ** The text of [py_expr] *)
Definition py_ok (ps : pstore) (e : expr) : Prop :=
  exists tss, ptoks ps e = ojoin tss /\ Forall2 piece_ok tss (py_pieces ps e) /\ tss <> [].
Lemma py_one ps e p : py_pieces ps e = [p] -> piece_ok (ptoks ps e) p -> py_ok ps e.
Proof. intros E H. exists [ptoks ps e]. rewrite E. split; [reflexivity|]. split; [now constructor|discriminate]. Qed.
Lemma py_reads ps e : readable e = true -> py_ok ps e.
Proof.
  assert (Hacc : forall k c es, three_values k es c = true -> (forall e, In e es -> py_ok ps e) ->
    piece_ok (TId (acc_fun k) :: TLP :: TLB :: tjoin (values_toks k c (map (ptoks ps) es)) ++ [TRB; TRP])
             (call_list (acc_fun k) (printed k c (map (fun e => ors (map whole (py_pieces ps e))) es)))).
  { intros k c es H3 H. apply call_list_piece; [|now apply values_nonempty]. apply printed_ok, Forall2_map. intros x Hx.
    destruct (H x Hx) as (tss & -> & Hp & Hne). now apply chain_delimited. }
  induction e as [z|y|p y|e IH|e IH|e IH|o l r IHl IHr|es c IH|es c IH] using expr_ind'; cbn [readable]; intros H.
  - eapply py_one; [reflexivity|apply number_piece].
  - eapply py_one; [reflexivity|apply name_piece].
  - eapply py_one; [reflexivity|apply number_piece].
  - eapply py_one; [reflexivity|]. now apply neg_piece, piece_delimited, str_reads.
  - eapply py_one; [reflexivity|]. now apply call_piece, piece_delimited, str_reads.
  - destruct (IH H) as (tss & Et & Hp & Hne). unfold py_ok. cbn [ptoks py_pieces]. destruct Hp as [|ts p tss l Hp Hps]; [contradiction|].
    exists ((TNot :: ts) :: tss). split; [|split; [|discriminate]].
    + rewrite Et. destruct tss; reflexivity.
    + constructor; [|exact Hps]. destruct Hp as (ats & -> & Ha). exists ats. now split.
  - apply andb_true_iff in H. destruct H as [Hl Hr]. destruct (IHl Hl) as (tl & El & Pl & Nl). destruct (IHr Hr) as (tr & Er & Pr & Nr).
    destruct (binop_dec o OOr) as [->|No].
    + exists (tl ++ tr). cbn [ptoks py_pieces].
      split; [rewrite El, Er; symmetry; now apply ojoin_app|]. split; [now apply Forall2_app|]. destruct tl; [contradiction|discriminate].
    + apply (py_one ps _ (Piece 0 false (ors (glue o (py_pieces ps l) (py_pieces ps r))))); [destruct o; try reflexivity; contradiction|].
      replace (ptoks ps (Bin o l r)) with (TLP :: (ptoks ps l ++ op_tok o :: ptoks ps r) ++ [TRP]) by (destruct o; try reflexivity; contradiction).
      apply one_piece, paren_atom. intros rest Hs. rewrite El, Er.
      destruct tr as [|tq tr]; [contradiction|]. destruct (glue_join (op_tok o) tl tq tr Nl) as [<- Ng].
      apply chain_read; [|exact Ng|exact Hs]. apply glue_ok; [exact No|exact Pl|exact Pr|discriminate].
  - apply andb_true_iff in H. destruct H as [H3 H]. rewrite forallb_forall in H. rewrite Forall_forall in IH.
    eapply py_one; [reflexivity|]. apply (Hacc KSum); auto.
  - apply andb_true_iff in H. destruct H as [H3 H]. rewrite forallb_forall in H. rewrite Forall_forall in IH.
    eapply py_one; [reflexivity|]. apply (Hacc KProd); auto.
Qed.

(** ** The lambda *)
Lemma readable_names e : forall x, readable e = true -> occurs x e -> name_ok x = true.
Proof.
  induction e as [z|y|p y|e IH|e IH|e IH|o l r IHl IHr|es c IH|es c IH] using expr_ind';
    intros x H Ho; inversion Ho; subst; cbn [readable] in H; rewrite ?andb_true_iff in H.
  - exact H.
  - now apply IH.
  - now apply IH.
  - now apply IH.
  - apply IHl; tauto.
  - apply IHr; tauto.
  - destruct H as [_ H]. rewrite forallb_forall in H. rewrite Forall_forall in IH. eapply IH; eauto.
  - destruct H as [_ H]. rewrite forallb_forall in H. rewrite Forall_forall in IH. eapply IH; eauto.
Qed.
Lemma Lx_readable ps e : readable e = true ->
  Lx (py_source ps e) (TLambda :: tjoin (arg_toks (vars e)) ++ TColon :: TLP :: ptoks ps e ++ [TRP]).
Proof.
  intros Hs. unfold py_source.
  apply (Lx_open "lambda " [TLambda]); [reflexivity|].
  assert (Hargs : Lx (sjoin ", " (vars e ++ ["**__dummy_kwargs"%string])) (tjoin (arg_toks (vars e)))).
  { apply Lx_join.
    - unfold arg_toks. apply Forall2_app.
      + replace (vars e) with (map (fun x : string => x) (vars e)) at 1 by apply map_id.
        apply Forall2_map. intros x Hx. apply vars_occurs in Hx. apply Lx_ok. now apply (readable_names e).
      + constructor; [|constructor].
        exists [TDStar], (LName "__dummy_kwargs"), [TId "__dummy_kwargs"]. repeat split; reflexivity.
    - destruct (vars e); discriminate. }
  apply Lx_app; [exact Hargs|reflexivity|].
  change (Lx (": (" ++ (py_expr ps e ++ ")")) ([TColon; TLP] ++ ptoks ps e ++ [TRP])).
  apply Lx_open; [reflexivity|]. apply Lx_close. now apply Lx_py.
Qed.
Lemma parse_args_err body ex : forall xs acc,
  NoDup (acc ++ xs) -> ~ In "__dummy_kwargs"%string (acc ++ xs) ->
  parse_expr body = Err ex -> parse_args (tjoin (arg_toks xs) ++ TColon :: body) acc = Err ex.
Proof.
  induction xs as [|x xs IH]; intros acc Hnd Hkw Hb.
  - simpl. rewrite app_nil_r in *. apply memb_false in Hkw. rewrite Hkw, Hb. reflexivity.
  - unfold arg_toks. cbn [map app]. fold (arg_toks xs).
    rewrite tjoin_cons by (destruct xs; discriminate). cbn [app parse_args].
    assert (Hx : memb x acc = false).
    { apply memb_false. intros Hin. apply NoDup_remove_2 in Hnd. apply Hnd. apply in_or_app. now left. }
    rewrite Hx. apply IH; [| |assumption]; rewrite <- app_assoc; assumption.
Qed.
Lemma reading_body ps e : readable e = true ->
  parse_expr (TLP :: ptoks ps e ++ [TRP]) = match reading ps e with Some a => Ok a | None => Err SyntaxError end.
Proof.
  intros H. destruct (py_reads ps e H) as (tss & E & Hp & Hne). unfold parse_expr, reading.
  destruct (chain_delimited tss (py_pieces ps e) Hp Hne) as [_ Hd]. rewrite <- E in Hd.
  pose proof (paren_atom _ _ Hd) as [Hh Ha]. specialize (Ha [] eq_refl). rewrite app_nil_r in Ha.
  apply (pread_lift 11 0) in Ha; [|lia|reflexivity|split; [discriminate|reflexivity]].
  destruct (ors (map whole (py_pieces ps e))) as [a|]; cbn [pread] in Ha.
  - destruct Ha as [_ Ha]. rewrite Ha; [reflexivity|]. unfold parse_fuel. simpl length. lia.
  - now rewrite Ha.
Qed.
Theorem as_function_reading ps e : readable e = true ->
  as_function ps e = match reading ps e with Some a => Compiled (vars e) a | None => Fallback end.
Proof.
  intros H. unfold as_function, compile. rewrite (Lx_lex _ _ (Lx_readable ps e H)). cbn [bind parse_lambda].
  assert (Hk : ~ In "__dummy_kwargs"%string ([] ++ vars e)).
  { simpl. intros Hi. apply vars_occurs in Hi. apply (readable_names e) in Hi; [|assumption].
    now apply (name_ok_special _ "__dummy_kwargs") in Hi; simpl; auto. }
  pose proof (reading_body ps e H) as B. destruct (reading ps e) as [a|].
  - rewrite (parse_args_ok _ a (vars e) []); [reflexivity|apply vars_NoDup|exact Hk|exact B].
  - rewrite (parse_args_err _ SyntaxError (vars e) []); [reflexivity|apply vars_NoDup|exact Hk|exact B].
Qed.
