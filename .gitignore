*.vo
*.vok
*.vos
*.glob
.*.aux
.*.cache
Makefile
Makefile.conf
.Makefile.d
*.d
__pycache__/
