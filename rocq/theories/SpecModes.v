(** A test run by its name and the same test run with all others *)
From Verif Require Export SpecProcess.
Open Scope N_scope.

(** [alike w own bs own' bs']: what is printed and sent ([own], [own']) and what is stored
    ([bs], [bs']) is the same, but that the second does not pass over the requests before a failure *)
Inductive alike (w : env) : list event -> list (list record) -> list event -> list (list record) -> Prop :=
| al_same own bs : alike w own bs own bs
| al_failed tr e rs : alike w (tr ++ [complaint w e]) [] (tr ++ [complaint w e] ++ lines rs) [rs].
