(** What a client may rely on between a call of top() and the call that follows it. *)
From Coq Require Import List Bool Permutation.
From Verif.Base Require Import Res.
From Verif.Spec Require Import PQ.
Import ListNotations.

(** After any history of calls in [api], if top() shows the entry [x], then the queue holds [x] and some other entries [m]; asking again
    shows [x] again and changes nothing; pop() removes and returns this same [x], and decreaseTop(y) puts [y] in place of this same [x].
    The calls may de-duplicate what is left as [dd] says. *)
Definition top_agrees {E St : Type} (dd : E -> E -> E -> Prop) (step : St -> op E -> res (St * out E)) (init : St) (abs : St -> list E)
  (api : op E -> bool) : Prop :=
  forall ops s rs s1 x, forallb api ops = true -> run step init ops = Ok (s, rs) -> step s Top = Ok (s1, OEntry x) ->
  step s1 Top = Ok (s1, OEntry x) /\
  exists m, Permutation (abs s1) (x :: m) /\
    (exists s2, step s1 Pop = Ok (s2, OEntry x) /\ merges dd m (abs s2)) /\
    (forall y, api (DecreaseTop y) = true -> exists s2, step s1 (DecreaseTop y) = Ok (s2, ONone) /\ merges dd (y :: m) (abs s2)).
