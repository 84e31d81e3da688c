(** * SpecMistake: where a text goes wrong. *)
From Verif Require Export SpecLang.

(** [s] is not in the language and stops being the beginning of a word of it
    after [u]: [u] can be completed, but not with what stands next; if nothing
    stands next, [u] is the whole text. *)
Definition wrong_after (W : lang) (s u rest : rstr) : Prop :=
  s = u ++ rest /\ ~ W s /\ (exists z, W (u ++ z)) /\ forall c r, rest = c :: r -> forall z, ~ W (u ++ c :: z).
