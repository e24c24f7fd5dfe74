(** How a consumer decides to leave its group gracefully: streams/source_consumer.go:353-376 (currentProtocolIsIncremental) and 379-394 (leave).
    Left out: log output; what follows is in Member.v (GracefullyLeaveGroup) and Lifecycle (stop). *)
From stdpp Require Import prelude list.
From Verif.Balancer Require Import Model Member.
Open Scope nat_scope.

(** The answer of adminClient.DescribeGroups, lines 364-372: an error, no group at all, not this group (the zero value, like an empty protocol), or the
    protocol that the broker reports, which is empty while the group is preparing a rebalance *)
Inductive reply := RError | RNoGroups | RProtocol (x : option strategy).
(** source.BalanceStrategies(), source.go:186-188, after newEventSourceConsumer has put the default there (source_consumer.go:64-68) *)
Definition configured (l : list strategy) : list strategy := match l with [] => [SIncremental] | _ => l end.
(** lines 353-376; sc.incrBalancer is not nil: hasIncr *)
Definition currentProtocolIsIncremental (l : list strategy) (r : reply) : bool :=
  if negb (hasIncr l) then false
  else if length (configured l) <=? 1 then true
  else match r with RError | RNoGroups => false | RProtocol x => bool_decide (x = Some SIncremental) end.
(** leave, lines 379-394: true if it asks the balancer to leave gracefully, false if it stops at once *)
Definition leavesGracefully (l : list strategy) (r : reply) : bool := if negb (hasIncr l) || negb (currentProtocolIsIncremental l r) then false else true.
