(** Specification of C69: integer quantities only. *)
From Coq Require Import ZArith.
Local Open Scope Z_scope.

(** n is the least number of batches of b observations that hold N observations *)
Definition least_batches (N b n : Z) : Prop := 0 <= n /\ N <= n * b /\ forall m, 0 <= m -> N <= m * b -> n <= m.

(** n is the largest number of complete batches of b observations in N observations *)
Definition complete_batches (N b n : Z) : Prop := 0 <= n /\ n * b <= N /\ forall m, 0 <= m -> m * b <= N -> m <= n.
