(** The stack machine of [solve] is a recursive search. *)
From Verif Require Import Solver ExprFacts DictFacts.
Open Scope list_scope.
Open Scope Z_scope.

(** ** The loop without timer, timeout and limit *)

Section Untimed.
Variable i : ginfo.
Variable consumer : nat -> world -> subst -> res world.

Definition uresult : Type := list subst * world * option exn.

Definition prepend (ys : list subst) (r : option uresult) : option uresult :=
  match r with Some (zs, w, x) => Some (ys ++ zs, w, x) | None => None end.

Fixpoint urun (fuel k : nat) (w : world) (c : cfg) : option uresult :=
  match fuel with
  | O => None
  | S f =>
      match g_stack c with
      | [] => Some ([], w, None)
      | _ =>
          match core_step w i c with
          | CErr ex => Some ([], w, Some ex)
          | CNext c' => urun f k w c'
          | CYield s c' =>
              match consumer k w s with
              | Err ex => Some ([s], w, Some ex)
              | Ok w' => prepend [s] (urun f (S k) w' c')
              end
          end
      end
  end.

(** Depth-first search: the domain of a variable is filtered once, on entry. *)
Section Loop.
Variable child : nat -> world -> Z -> list subst * world * res nat.
Fixpoint values (d : list Z) (k : nat) (w : world) : list subst * world * res nat :=
  match d with
  | [] => ([], w, Ok k)
  | v :: d' =>
      match child k w v with
      | (ys, w', Err ex) => (ys, w', Err ex)
      | (ys, w', Ok k') =>
          match values d' k' w' with (zs, w'', r) => (ys ++ zs, w'', r) end
      end
  end.
End Loop.

Fixpoint search (xs : list name) (k : nat) (w : world) (s : subst) : list subst * world * res nat :=
  match xs with
  | [] => match consumer k w s with
          | Err ex => ([s], w, Err ex)
          | Ok w' => ([s], w', Ok (S k))
          end
  | x :: rest =>
      match filter_domain w i x s with
      | Err ex => ([], w, Err ex)
      | Ok d => values (fun k w v => search rest k w (dset s x v)) d k w
      end
  end.

Definition after (r : list subst * world * res nat) (cont : nat -> world -> option uresult)
  : option uresult :=
  match r with
  | (ys, w, Ok k) => prepend ys (cont k w)
  | (ys, w, Err ex) => Some (ys, w, Some ex)
  end.

Lemma prepend_nil r : prepend [] r = r.
Proof. destruct r as [[[ys w] x]|]; reflexivity. Qed.

Lemma prepend_app a b r : prepend (a ++ b) r = prepend a (prepend b r).
Proof. destruct r as [[[ys w] x]|]; simpl; [now rewrite app_assoc|reflexivity]. Qed.

Lemma ddel_dset_new {A} (d : dict A) x a : dget d x = None -> ddel (dset d x a) x = d.
Proof.
  induction d as [|[y b] d IH]; simpl; intros H; [now rewrite eqb_refl_s|].
  destruct (String.eqb x y) eqn:E; [discriminate|]. simpl. rewrite E. now rewrite IH.
Qed.

Lemma urun_S f k w c :
  urun (S f) k w c =
      match g_stack c with
      | [] => Some ([], w, None)
      | _ =>
          match core_step w i c with
          | CErr ex => Some ([], w, Some ex)
          | CNext c' => urun f k w c'
          | CYield s c' =>
              match consumer k w s with
              | Err ex => Some ([s], w, Some ex)
              | Ok w' => prepend [s] (urun f (S k) w' c')
              end
          end
      end.
Proof. reflexivity. Qed.

Lemma search_sim xs : xs <> [] -> NoDup xs ->
  forall k w s stk doms, (forall y, In y xs -> dget doms y = None) ->
  exists n, forall f,
    urun (n + f) k w (Cfg ((xs, s) :: stk) doms) =
    after (search xs k w s) (fun k' w' => urun f k' w' (Cfg stk doms)).
Proof.
  induction xs as [|x rest IH]; intros Hne Hnd k w s stk doms Hdoms; [contradiction|]. clear Hne.
  inversion Hnd as [|? ? Hx Hnd']; subst.
  assert (Hxd : dget doms x = None) by (apply Hdoms; now left).
  (* iterating over the remaining values *)
  assert (HQ : forall d k w, exists n, forall f,
    urun (S (n + f)) k w (Cfg ((x :: rest, s) :: stk) (dset doms x d)) =
    after (values (fun k w v => search rest k w (dset s x v)) d k w)
          (fun k' w' => urun f k' w' (Cfg stk doms))).
  { clear k w. induction d as [|v d IHd]; intros k w.
    - exists 0%nat. intros f. cbn [Nat.add]. rewrite urun_S. unfold core_step. cbn [g_stack g_doms].
      rewrite dget_dset_eq, ddel_dset_new by assumption. cbn [values after]. now rewrite prepend_nil.
    - destruct rest as [|y rest'].
      + (* last variable *)
        cbn [values search]. destruct (consumer k w (dset s x v)) as [w'|ex] eqn:Ec.
        * destruct (IHd (S k) w') as (n & Hn). exists (S n). intros f. cbn [Nat.add].
          rewrite urun_S. unfold core_step. cbn [g_stack g_doms]. rewrite dget_dset_eq.
          cbn [take_value]. rewrite Ec, dset_dset, Hn.
          destruct (values (fun k0 w0 v0 => search [] k0 w0 (dset s x v0)) d (S k) w') as [[zs w''] [k''|ex]] eqn:Ev;
            cbn [search] in Ev; rewrite Ev; cbn [after]; [now rewrite prepend_app|reflexivity].
        * exists 0%nat. intros f. cbn [Nat.add]. rewrite urun_S. unfold core_step. cbn [g_stack g_doms].
          rewrite dget_dset_eq. cbn [take_value]. rewrite Ec. reflexivity.
      + assert (Hr : forall z, In z (y :: rest') -> dget (dset doms x d) z = None).
        { intros z Hz. rewrite dget_dset_ne; [apply Hdoms; now right|]. intros ->. contradiction. }
        destruct (IH ltac:(discriminate) Hnd' k w (dset s x v) ((x :: y :: rest', s) :: stk)
                     (dset doms x d) Hr) as (n1 & Hn1).
        remember (search (y :: rest')) as sr eqn:Esr. cbn [values].
        destruct (sr k w (dset s x v)) as [[ys w'] [k'|ex]] eqn:Es.
        * destruct (IHd k' w') as (n2 & Hn2). exists (n1 + S n2)%nat. intros f. cbn [Nat.add].
          rewrite urun_S. unfold core_step at 1. cbn [g_stack g_doms]. rewrite dget_dset_eq.
          cbn [take_value]. rewrite dset_dset.
          replace (n1 + S n2 + f)%nat with (n1 + S (n2 + f))%nat by lia. rewrite Hn1. cbn [after]. rewrite Hn2.
          destruct (values (fun k0 w0 v0 => sr k0 w0 (dset s x v0)) d k' w') as [[zs w''] [k''|ex]];
            cbn [after]; [now rewrite prepend_app|reflexivity].
        * exists n1. intros f. cbn [Nat.add].
          rewrite urun_S. unfold core_step at 1. cbn [g_stack g_doms]. rewrite dget_dset_eq.
          cbn [take_value]. rewrite dset_dset, Hn1. reflexivity. }
  cbn [search].
  destruct (filter_domain w i x s) as [d|ex] eqn:Ef.
  - destruct d as [|v d].
    + exists 1%nat. intros f. cbn [Nat.add]. rewrite urun_S. unfold core_step. cbn [g_stack g_doms].
      rewrite Hxd, Ef. cbn [values after]. now rewrite prepend_nil.
    + (* the first iteration is the same as from the state where the domain is stored *)
      destruct (HQ (v :: d) k w) as (n & Hn). exists (S n). intros f. cbn [Nat.add].
      rewrite <- Hn. rewrite !urun_S. unfold core_step. cbn [g_stack g_doms].
      now rewrite Hxd, Ef, dget_dset_eq.
  - exists 1%nat. intros f. cbn [Nat.add]. rewrite urun_S. unfold core_step. cbn [g_stack g_doms].
    rewrite Hxd, Ef. reflexivity.
Qed.

(** The whole search. *)
Definition outcome (r : list subst * world * res nat) : uresult :=
  match r with
  | (ys, w, Ok _) => (ys, w, None)
  | (ys, w, Err ex) => (ys, w, Some ex)
  end.

Lemma urun_search xs k w : xs <> [] -> NoDup xs ->
  exists n, forall f, urun (n + f) k w (Cfg [(xs, [])] []) = Some (outcome (search xs k w [])).
Proof.
  intros Hne Hnd.
  destruct (search_sim xs Hne Hnd k w [] [] [] (fun _ _ => eq_refl)) as (n & Hn).
  exists (n + 1)%nat. intros f. replace (n + 1 + f)%nat with (n + S f)%nat by lia. rewrite Hn.
  destruct (search xs k w []) as [[ys w'] [k'|ex]]; simpl; [now rewrite app_nil_r|reflexivity].
Qed.

Lemma urun_mono f : forall k w c r g, urun f k w c = Some r -> urun (f + g) k w c = Some r.
Proof.
  induction f as [|f IH]; intros k w c r g H; [discriminate|]. cbn [Nat.add]. rewrite urun_S in *.
  destruct (g_stack c); [assumption|]. destruct (core_step w i c) as [c'|s c'|ex]; [|destruct (consumer k w s) as [w'|ex]|].
  - now apply IH.
  - destruct (urun f (S k) w' c') as [u|] eqn:E; [|discriminate]. now rewrite (IH _ _ _ _ g E).
  - assumption.
  - assumption.
Qed.

End Untimed.
