*.vo
*.vok
*.vos
*.glob
*.aux
.lia.cache
.nia.cache
*.cache
__pycache__/
