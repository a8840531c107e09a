(** C13: arguments keep order; the last property wins. *)

From Coq Require Import NArith List String Lia.
From Verif Require Import Chars Ast Errors Chumsky Spans Grammar Kdl KdlText Layout Observe LexProps Sample.
Import ListNotations.
Local Open Scope list_scope.

(** [item_args]: the argument values as written; [last_property items k v]: the
    last item that is a property named [k] has the value [v]. *)
Theorem C13_items : forall items, wf_items items ->
  exists ps, reads (str "n" ++ render_items items)
      [Spanned tt (Node None (Spanned tt (str "n")) (item_args items) ps None)]
    /\ increasing ps
    /\ forall k v, In (k, v) ps <-> last_property items (s_value k) v.
Proof. exact items_read. Qed.
Print Assumptions C13_items.

(** A property twice, an argument twice. *)
Example C13_example : wf_items
  [(sp, DProp (str "k") (str "k") txt); (sp, DArg one); (sp, DArg one);
   (sp, DProp (str "j") (str "j") one); (sp, DProp (str "k") (str "k") txt)].
Proof.
  repeat (apply Forall_cons; [split; [exact sp_wf|split; [discriminate|]]|]);
    [exact k_wf|exact one_wf|exact one_wf|exact j_wf|exact k_wf|constructor].
Qed.
