(** What it means for a function to honour its [approx] argument (C07).
    [F g a] is the function called with [approx = a] while [ENABLE_APPROX = g]. *)
Definition honours {A : Type} (F : bool -> option bool -> A) : Prop :=
  (forall g g' b, F g (Some b) = F g' (Some b)) /\
  (forall g, F g None = F g (Some g)).
