(** * SpecViable: what an error of a generated parser promises. *)
From Verif Require Export Runtime.

(** [says W u rest x]: the error [x], raised when [u] had been consumed and
    [rest] was left, is true of the words [W]: whatever it says was expected
    can follow [u] in a word, and what was met is none of it. *)
Definition says (W : rstr -> Prop) (u rest : rstr) (x : take_error) : Prop :=
  match x with
  | BadBranch _ c expected =>
    (exists r, rest = c :: r) /\ ~ In c expected /\ expected <> []
    /\ forall d, In d expected -> exists z, W (u ++ d :: z)
  | BadString _ got s =>
    (* [v], the end of [u], is the part of [s] that was read *)
    exists q v d s' c r out, s = v ++ d :: s' /\ u = q ++ v /\ rest = c :: r /\ c <> d
    /\ got = out ++ [c] /\ (Forall (fun a => (a < 128)%N) v -> out = v)
    /\ exists z, W (q ++ s ++ z)
  | EndOfStream _ => rest = [] /\ exists z, z <> [] /\ W (u ++ z)
  end.
