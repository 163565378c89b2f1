# Notes and status overrides per property.  The theorem list of a property is
# collected from the Theorem names in rocq/theories/Props*.v (see gen.py).
NOTE = {}
STATUS = {}
