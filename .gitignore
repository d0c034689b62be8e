.lia.cache
.nia.cache
*.aux
*.vo*
*.glob
Makefile*
.Makefile*
__pycache__
.nra.cache
.lia.cache
.nia.cache
