(** Python exceptions raised by the modelled code *)
Inductive py_err := AttributeError | NotImplementedError | ValueError | TypeError | IndexError | UnboundLocalError | ImportError
  | KeyError | RuntimeError | ZeroDivisionError.
