__pycache__/
*.vo
*.vos
*.vok
*.glob
*.aux
.nra.cache
.lia.cache
rocq/Makefile
rocq/Makefile.conf
rocq/.Makefile.d
