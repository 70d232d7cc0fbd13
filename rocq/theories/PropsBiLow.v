(** * C59: the bivariate spectrum without the cumulants it needs *)
From Coq Require Import Reals List ZArith Bool Lra Lia.
From Verif Require Import XReal PyBase ModelUtils ModelMRQ ModelBivariate Spec SpecMRQ.
Import ListNotations.
Open Scope R_scope.

(** With cumulants of order below two only, compute_legendre fails as soon as the grid has a point, and returns two empty arrays on an empty grid
    (also with all the cumulants) *)
Theorem C59_low_orders :
  (forall b lo hi n, (bc_n_cumul b < 2)%nat -> (1 <= n)%nat -> compute_legendre b lo hi n = Err ValueError) /\
  (forall b lo hi, compute_legendre b lo hi 0 = Ok ([], [])).
Proof.
  split.
  - intros b lo hi n Hb Hn. assert (E : bc_c b 2 0 = []). { unfold bc_c. destruct (Nat.leb_spec 2 (bc_n_cumul b)); [lia|reflexivity]. }
    unfold compute_legendre. rewrite E. destruct n; [lia|]. destruct (bc_c b 1 0) as [|? [|]]; try reflexivity; now destruct (bc_c b 0 1) as [|? [|]].
  - intros b lo hi. unfold compute_legendre. change (linspace lo hi 0) with (@nil R).
    destruct (bc_c b 1 0) as [|? [|]]; try reflexivity; destruct (bc_c b 0 1) as [|? [|]]; try reflexivity; destruct (bc_c b 2 0) as [|? [|]]; try reflexivity; destruct (bc_c b 0 2) as [|? [|]]; try reflexivity; now destruct (bc_c b 1 1) as [|? [|]].
Qed.
Print Assumptions C59_low_orders.
