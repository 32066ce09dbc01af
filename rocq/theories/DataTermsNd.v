(** The number of dimensions in data_terms.py: np.linalg.norm without `axis` is a vector norm for 1-D arrays, an
    operator norm for 2-D arrays, and raises for more dimensions unless `ord` is None. *)
From Coq Require Import Reals Lra Lia List.
Import ListNotations.
From Verif Require Import Sums Arrays DataTermsModel PyErr.
Open Scope R_scope.

(** np.linalg.norm(x, ord=1): sum of absolute values (1-D), largest absolute column sum (2-D), ValueError
    "Improper number of dimensions to norm." (any other number of dimensions). *)
Definition np_norm_ord1 (s : list nat) (x : arr) : py_err + R :=
  match s with
  | [n] => inr (rsum n (fun i => Rabs (x [i])))
  | [n; m] => inr (rmax m (fun j => rsum n (fun i => Rabs (x [i; j]))))
  | _ => inl ValueError
  end.
(** data_terms.py:580-584 [DataFidelity_l1.compute_residual_norm], with 543-547 (no threshold, inner norm = abs). *)
Definition l1_residual_norm_nd (s : list nat) (dual : arr) : py_err + R := np_norm_ord1 s (fun l => Rabs (dual l)).
(** data_terms.py:298-299 (l2) and 741-742 (KL): flattened first. *)
Definition l2_residual_norm_nd (s : list nat) (dual : arr) : py_err + R :=
  inr ((sqrt (bsum [size s] (fun l => match l with [k] => dual (unflat s k) ^ 2 | _ => 0 end))) ^ 2).
Definition kl_residual_norm_nd (s : list nat) (dual : arr) : py_err + R :=
  np_norm_ord1 [size s] (fun l => match l with [k] => dual (unflat s k) | _ => 0 end).
