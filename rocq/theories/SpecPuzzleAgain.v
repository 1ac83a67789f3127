(** Specification: a puzzle object that is used several times. *)
From Verif Require Import PuzzleAgain SpecSolve SpecPuzzle SpecPuzzleUser.
Open Scope list_scope.
Open Scope Z_scope.

(** What has been added and set. *)
Definition additions (acts : list act) : list ustmt := flat_map (fun x => match x with AAdd u => [u] | _ => [] end) acts.
Definition last_timeout (t : lim) (acts : list act) : lim := fold_left (fun t x => match x with ATimeout t' => t' | _ => t end) acts t.
Definition last_policy (p : policy) (acts : list act) : policy := fold_left (fun p x => match x with APolicy p' => p' | _ => p end) acts p.
Definition last_limit (l : lim) (acts : list act) : lim := fold_left (fun l x => match x with ALimit l' => l' | _ => l end) acts l.

Definition shuffling (x : act) : Prop := match x with ALoop shuffle _ _ => shuffles shuffle | _ => True end.

(** After any statements and loops, iterating gives exactly the results that [ok] and the
    statements added until then allow. *)
Definition always_exact {A B} clk (init : op A) (decode : A -> subst -> res B) pol t l cmp
    (ok : B -> Prop) (values : B -> assignment -> Prop) (D : name -> Z -> Prop) : Prop :=
  exists obj e0, construct init = Ok (obj, e0) /\
  forall acts r shuffle, us_ok D cmp (additions acts) -> Forall shuffling acts -> shuffles shuffle ->
    play clk (decode obj) (new_solver pol t l cmp) e0 acts = Some r ->
    exists sv e, r = Ok (sv, e) /\
      exactly_firsts (fun fuel => results clk (decode obj) shuffle fuel sv e) (also_with ok values (additions acts))
        (last_timeout t acts) (last_limit l acts).

Definition untimed (t : lim) : Prop := t = LNone \/ t = LInfinity.

(** The results of a loop are the same after further loops, complete or not. *)
Definition is_loop (x : act) : Prop := match x with ALoop shuffle _ _ => shuffles shuffle | _ => False end.
Definition always_same {A B} clk (init : op A) (decode : A -> subst -> res B) pol t l cmp (D : name -> Z -> Prop) : Prop :=
  forall obj e0 acts more sv e sv' e' shuffle shuffle' f bs r i f' bs' r' i',
    construct init = Ok (obj, e0) -> us_ok D cmp (additions acts) ->
    Forall shuffling acts -> Forall is_loop more -> shuffles shuffle -> shuffles shuffle' ->
    play clk (decode obj) (new_solver pol t l cmp) e0 acts = Some (Ok (sv, e)) ->
    last_policy pol acts <> RANDOM -> untimed (last_timeout t acts) ->
    results clk (decode obj) shuffle f sv e = Some (bs, r, i) ->
    play clk (decode obj) sv e more = Some (Ok (sv', e')) ->
    results clk (decode obj) shuffle' f' sv' e' = Some (bs', r', i') ->
    bs' = bs.

(** They are those of a new puzzle object that has been given these settings at once, and to
    which the same things have been added without any loop in between. *)
Definition always_fresh {A B} clk (init : op A) (decode : A -> subst -> res B) pol t l cmp (D : name -> Z -> Prop) : Prop :=
  forall obj e0 acts sv e clk' sv' e' shuffle shuffle' f bs r i f' bs' r' i',
    construct init = Ok (obj, e0) -> us_ok D cmp (additions acts) ->
    Forall shuffling acts -> shuffles shuffle -> shuffles shuffle' ->
    last_policy pol acts <> RANDOM -> untimed (last_timeout t acts) ->
    play clk (decode obj) (new_solver pol t l cmp) e0 acts = Some (Ok (sv, e)) ->
    play clk' (decode obj) (new_solver (last_policy pol acts) (last_timeout t acts) (last_limit l acts) cmp) e0
      (map AAdd (additions acts)) = Some (Ok (sv', e')) ->
    results clk (decode obj) shuffle f sv e = Some (bs, r, i) ->
    results clk' (decode obj) shuffle' f' sv' e' = Some (bs', r', i') ->
    bs' = bs /\ r' = r /\ i' = i.
