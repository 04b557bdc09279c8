(** Models with mixtures: a requested mixture has the distribution of the
    component its index selects. *)
From Coq Require Import Reals List Arith ZArith Bool.
From Coquelicot Require Import Coquelicot.
From Verif Require Import XR ModelJoint ModelCensSys SpecCensSys.
Import ListNotations.
Open Scope R_scope.

(** consecutive parts of given lengths *)
Fixpoint cut {A} (ls : list nat) (xs : list A) : list (list A) :=
  match ls with [] => [] | n :: ls => firstn n xs :: cut ls (skipn n xs) end.
(** the operations [sel] return the entry of a list that their first operand selects *)
Definition selects (fs : nat -> list xr -> xr) (sel : nat -> bool) : Prop :=
  forall k i xs r, sel k = true -> (fs k (map Fin (i :: xs)) = Fin r <-> exists n, i = INR n /\ nth_error xs n = Some r).

Section Mixtures.
Variable sel : nat -> bool.
Variable h : list cnode.
Variable req : list nat.
Variable cont : nat -> bool.
Variable pdf : nat -> list R -> R -> R.
Variable proper : nat -> list R -> Prop.
(** distributions of the model are below [D] *)
Variable D : nat.
Definition numbered : Prop := forall v d ps, nth_error h v = Some (CRv d ps) -> (d < D)%nat.

Definition mixture (v idx : nat) (comps : list nat) : Prop := exists k, nth_error h v = Some (COther k (idx :: comps)) /\ sel k = true.
(** components are random variables of their own, which are not requested, and
    all continuous or all discrete *)
Definition plain_mixtures : Prop := forall v idx comps, In v req -> mixture v idx comps ->
  comps <> [] /\ (exists c, forall b, In b comps -> ~ In b req /\ exists d ps, nth_error h b = Some (CRv d ps) /\ cont d = c).
Definition rv_dist (b : nat) : nat := match nth_error h b with Some (CRv d _) => d | _ => 0 end.
Definition rv_params (b : nat) : list nat := match nth_error h b with Some (CRv _ ps) => ps | _ => [] end.

(** The model in which the requested mixture [v] is a random variable with the
    distribution [D + v], whose parameters are the index and the parameters of
    all components. *)
Definition merge (v : nat) (n : cnode) : cnode :=
  match n with
  | COther k (idx :: comps) => if (sel k && mem v req)%bool then CRv (D + v) (idx :: flat_map rv_params comps) else n
  | _ => n
  end.
Definition merged : list cnode := map (fun p => merge (fst p) (snd p)) (combine (seq 0 (length h)) h).
(** the distributions and parameters of the components *)
Definition parts {A} (v : nat) (xs : list A) : list (nat * list A) :=
  match nth_error h v with
  | Some (COther k (_ :: comps)) => if (sel k && mem v req)%bool then combine (map rv_dist comps) (cut (map (fun b => length (rv_params b)) comps) xs) else []
  | _ => []
  end.
Definition m_cont (d : nat) : bool :=
  if (d <? D)%nat then cont d else match nth_error h (d - D) with Some (COther _ (_ :: b :: _)) => cont (rv_dist b) | _ => false end.
Definition m_pdf (d : nat) (xs : list R) (z : R) : R :=
  if (d <? D)%nat then pdf d xs z
  else match xs with
       | i :: xs => match nth_error (parts (d - D) xs) (Z.to_nat (Int_part i)) with Some (e, l) => pdf e l z | None => 0 end
       | [] => 0
       end.
Definition m_proper (d : nat) (xs : list R) : Prop :=
  if (d <? D)%nat then proper d xs
  else match xs with
       | i :: xs => (exists n, i = INR n /\ (n < length (parts (d - D) xs))%nat) /\ (forall e l, In (e, l) (parts (d - D) xs) -> proper e l)
       | [] => False
       end.
(** the random variables behind a requested variable *)
Definition sources (base : nat -> nat) (v : nat) : list nat :=
  match nth_error h v with Some (COther k (_ :: comps)) => if sel k then comps else [base v] | _ => [base v] end.
End Mixtures.
